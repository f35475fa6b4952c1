(** * Runs at given load: light loads and flat surfaces *)
From Coq Require Import Reals Lra Lia List Bool Arith FunctionalExtensionality.
From Verif Require Import CCG_Model CCG_Real CCG_Spec CCG_Proofs CCG_Results CCG_Conv CCG_Results2.
Import ListNotations.
Local Open Scope R_scope.

Section Load.
  Context {P : Type}.
  Local Notation K := (ROps P).
  Variable c : @cfg R P.
  Hypothesis El : elastic c.
  Hypothesis Tol : tolerances_positive c.
  Variable Fx : R.
  Hypothesis Ext : c_ext c = Some Fx.

  (** The load spread over the whole surface. *)
  Definition spread (p : P) : R := if comp c p then - Fx / INR (c_nsurf c) else 0.
  Hypothesis Count : (0 < c_nsurf c)%nat.
  Hypothesis Points : List.length (filter (comp c) (grid c)) = c_nsurf c.

  Lemma tot_spread : tot_force c spread = Fx.
  Proof.
    assert (E : lsum (grid c) (fun p => bmul K (comp c p) (spread p)) = INR (c_nsurf c) * (- Fx / INR (c_nsurf c))).
    { rewrite <- Points at 1. rewrite <- lsum_filter_const, lsum_filter. apply lsum_ext. intros p _. unfold spread, bmul.
      destruct (comp c p); reflexivity. }
    change (tot_force c spread) with (- lsum (grid c) (fun p => bmul K (comp c p) (spread p))). rewrite E. pose proof (lt_0_INR _ Count). field. lra.
  Qed.

  Section Zero.
    Variable s : @state R P.
    Hypothesis Sf : s_f s = (fun _ => 0).
    Hypothesis Su : s_u s = (fun _ => 0).
    Hypothesis St : s_t s = (fun _ => 0).
    Hypothesis Below : forall p, on_surface c p -> c_h c p <= 0.
    Hypothesis Disp0 : forall p, c_disp c (fun _ => 0) p = 0.

    Lemma zero_cg p : cg_set K c s p = false.
    Proof. rewrite elastic_cg_set by exact El. apply Rltb_false. rewrite Sf. lra. Qed.
    Lemma zero_none : Nat.ltb O (rcount (c_ranks c) (cg_set K c s)) = false.
    Proof. apply rcount_zero. intros p _. apply zero_cg. Qed.
    Lemma zero_t : h_t (cg_half K c s) = (fun _ => 0).
    Proof.
      apply functional_extensionality. intros p. rewrite cg_half_t, zero_cg, St. destruct (comp c p); reflexivity.
    Qed.
    Lemma zero_f : h_f (cg_half K c s) = (fun _ => 0).
    Proof. apply functional_extensionality. intros p. rewrite cg_half_f, zero_cg, Sf. unfold bmul. cbn [ROps o0]. lra. Qed.
    Lemma zero_off : h_off (cg_half K c s) = 0.
    Proof. rewrite cg_half_off, Ext, zero_none. reflexivity. Qed.
    Lemma zero_G : h_G (cg_half K c s) = 0.
    Proof.
      rewrite cg_half_G. cbv zeta. rewrite rsum_lsum, lsum_zero.
      - destruct (Nat.ltb _ _); auto. destruct (Rltb _ _); auto.
      - intros p _. rewrite zero_cg. unfold bmul. destruct (comp c p); reflexivity.
    Qed.
    Lemma zero_clip : clip_tensile K (cg_half K c s) = (fun _ => 0).
    Proof.
      apply functional_extensionality. intros p.
      destruct (clip_tensile_cases (cg_half K c s) p) as [[_ ->]|[_ ->]]; rewrite ?zero_f; reflexivity.
    Qed.
    Lemma zero_nc : any_nc K c (cg_half K c s) = false.
    Proof.
      unfold any_nc. apply rcount_zero. intros p _. unfold nc_set. destruct (comp c p) eqn:E; [|reflexivity]. cbn [andb].
      unfold mask_flowing. unfold elastic in El. rewrite El, andb_false_l, orb_false_r. apply andb_false_intro2.
      apply Rltb_false. cbn [ROps o0]. rewrite cg_half_g, zero_off, Su. apply comp_spec in E. specialize (Below p E). lra.
    Qed.
    Lemma zero_new : new_force K c (cg_half K c s) = spread.
    Proof.
      rewrite elastic_new_force by (auto using zero_nc, cg_half_str). rewrite zero_clip, adjust_force_unfold, Ext.
      assert (Z : tot_force c (fun _ => 0) = 0).
      { unfold tot_force. rewrite lsum_zero; [lra|]. intros p _. unfold bmul. destruct (comp c p); reflexivity. }
      rewrite Z. destruct (Reqb 0 0) eqn:E; [reflexivity|]. apply Reqb_false in E. congruence.
    Qed.

    Lemma zero_iter : Fx <> 0 -> s_lastmh s = None -> exists fu, iter K c s = Ok fu
      /\ s_f (fu_state fu) = spread /\ s_u (fu_state fu) = c_disp c spread /\ s_t (fu_state fu) = (fun _ => 0)
      /\ s_off (fu_state fu) = 0
      /\ (fu_conv fu = true <-> forall p, In p (grid c) -> Rabs (c_disp c spread p) < c_pentol c).
    Proof.
      intros FN LM. destruct Tol as [T1 [T2 T3]].
      unfold iter, first_half. pose proof El as El'. unfold elastic in El'. rewrite El'. unfold second_half.
      assert (Hmp : max_pres K c (cg_half K c s) = Ok 0).
      { unfold max_pres. rewrite El'. destruct (Nat.ltb _ _); [|reflexivity]. rewrite rmax_const0; [reflexivity|].
        intros p _ _. rewrite zero_f. reflexivity. }
      rewrite Hmp. eexists. split; [reflexivity|]. cbn [fu_conv fu_state s_f s_u s_off s_t].
      split; [exact zero_new|]. split; [cbn [ROps mat]; rewrite zero_new; reflexivity|]. split; [exact zero_t|].
      split; [exact zero_off|].
      assert (Hpp : pad_pres K c (cg_half K c s) = 0).
      { unfold pad_pres. destruct (Nat.ltb _ _); [|reflexivity]. apply rmax_const0. intros p _ _.
        rewrite absF_Rabs, zero_f. apply Rabs_R0. }
      rewrite cg_half_str, Hpp, LM, Ext. unfold new_G. rewrite cg_half_str, zero_G, zero_new.
      cbn [ROps mat oltb o0 oadd osub omul odiv oopp onat].
      assert (F1 : rel_lt K (- rsum K (c_ranks c) (fun p => bmul K (comp c p) (spread p)) - Fx)
         (- rsum K (c_ranks c) (fun p => bmul K (comp c p) (spread p))) (c_thermotol c) = true).
      { rewrite rsum_lsum. fold (grid c). fold (tot_force c spread). rewrite tot_spread.
        unfold rel_lt. cbn [ROps oeqb odiv oltb o0]. destruct (Reqb Fx 0) eqn:E; [apply Reqb_true in E; congruence|].
        rewrite absF_Rabs. apply Rltb_true. replace ((Fx - Fx) / Fx) with 0 by (field; exact FN). rewrite Rabs_R0. exact T3. }
      change (rel_lt (ROps P)) with (rel_lt K). change (rsum (ROps P)) with (rsum K). change (bmul (ROps P)) with (bmul K).
      rewrite F1. cbn [andb].
      assert (B1 : Rltb 0 (c_pentol c) = true) by (apply Rltb_true; exact T1).
      assert (B2 : Rltb (if (0 <? h_Acg (cg_half (ROps P) c s))%nat then 0 / INR (h_Acg (cg_half (ROps P) c s)) else 0) (c_pentol c * c_pentol c) = true).
      { apply Rltb_true. assert (0 < c_pentol c * c_pentol c) by (apply Rmult_lt_0_compat; exact T1).
        destruct (Nat.ltb _ _); [|assumption]. unfold Rdiv. rewrite Rmult_0_l. assumption. }
      assert (B4 : Rltb 0 (c_forcetol c) = true) by (apply Rltb_true; exact T2).
      rewrite B1, B2, B4, !andb_true_r. cbn [andb].
      rewrite andb_true_iff, (rmax_lt (c_ranks c)). split.
      - intros [_ H] p Hp. specialize (H p Hp eq_refl). rewrite absF_Rabs, Su in H. replace (c_disp c spread p - 0) with (c_disp c spread p) in H by ring. exact H.
      - intros H. split.
        + apply Rltb_true.
          match goal with |- match rmax ?k ?rk ?m ?phi with _ => _ end < _ =>
            pose proof (rmax_const0 rk m phi) as M; destruct (rmax k rk m phi) end; auto.
          change (rmax (ROps P)) with (rmax K) in M. rewrite M.
          * rewrite maxF_Rmax. unfold Rmax. destruct (Rle_dec 0 0); exact T1.
          * intros p _ _. change (h_c (cg_half (ROps P) c s) p) with (cg_set K c s p). rewrite zero_cg. reflexivity.
        + intros p Hp _. rewrite absF_Rabs, Su. replace (c_disp c spread p - 0) with (c_disp c spread p) by ring. apply H. exact Hp.
    Qed.
  End Zero.

  (** ** Flat surfaces *)
  Section Flat.
    Variables (h0 kap : R).
    Hypothesis Whole : forall p, comp c p = true.
    Hypothesis Flat : forall p, c_h c p = h0.
    Hypothesis Kap : 0 < kap.
    Hypothesis Disp : forall v, c_disp c (fun _ => v) = (fun _ => - kap * v).
    Hypothesis Load : 0 < Fx.
    Definition pushed : R := kap * (Fx / INR (c_nsurf c)).

    Lemma spread_flat : spread = (fun _ => - Fx / INR (c_nsurf c)).
    Proof. apply functional_extensionality. intros p. unfold spread. rewrite Whole. reflexivity. Qed.
    Lemma disp_spread : c_disp c spread = (fun _ => pushed).
    Proof. rewrite spread_flat, Disp. apply functional_extensionality. intros p. unfold pushed, Rdiv. ring. Qed.
    Lemma whole_count (m : P -> bool) : (forall p, m p = true) -> rcount (c_ranks c) m = c_nsurf c.
    Proof.
      intros H. rewrite rcount_length. fold (grid c). rewrite <- Points. f_equal. apply filter_ext. intros p. rewrite H, Whole. reflexivity.
    Qed.
    Lemma whole_sum v : lsum (grid c) (fun _ => v) = INR (c_nsurf c) * v.
    Proof.
      rewrite <- Points, <- lsum_filter_const. rewrite lsum_filter. apply lsum_ext. intros p _. rewrite Whole. reflexivity.
    Qed.
    Lemma some_point : exists p, In p (grid c).
    Proof. destruct (grid c) as [|p l] eqn:E; [cbn in Points; lia|]. exists p. left. reflexivity. Qed.
    Lemma flat_max (m : P -> bool) (phi : P -> R) v : (forall p, m p = true) -> (forall p, phi p = v) -> rmax K (c_ranks c) m phi = Some v.
    Proof.
      intros Hm Hv. pose proof (rmax_is_max (c_ranks c) m phi) as M. destruct some_point as [p Hp].
      destruct (rmax_ge (c_ranks c) m phi p Hp (Hm p)) as [z [E _]]. rewrite E in *. destruct M as [_ [q [_ Q]]]. rewrite <- Q, Hv. reflexivity.
    Qed.

    Variables (s : @state R P) (v w : R).
    Hypothesis Sf : s_f s = (fun _ => v).
    Hypothesis Su : s_u s = (fun _ => w).
    Hypothesis St : s_t s = (fun _ => 0).
    Hypothesis Vneg : v < 0.

    Lemma flat_cg p : cg_set K c s p = true.
    Proof. rewrite elastic_cg_set by exact El. apply Rltb_true. rewrite Sf. lra. Qed.
    Lemma flat_off : h_off (cg_half K c s) = w - h0.
    Proof.
      rewrite cg_half_off, Ext, whole_count by exact flat_cg. rewrite (proj2 (Nat.ltb_lt _ _) Count), rsum_lsum. fold (grid c).
      rewrite (lsum_ext _ _ (fun _ => w - h0)).
      - rewrite whole_sum. pose proof (lt_0_INR _ Count). field. lra.
      - intros p _. rewrite Whole, flat_cg, Su, Flat. reflexivity.
    Qed.
    Lemma flat_g p : h_g (cg_half K c s) p = 0.
    Proof. rewrite cg_half_g, flat_off, Su, Flat. ring. Qed.
    Lemma flat_t : h_t (cg_half K c s) = (fun _ => 0).
    Proof.
      apply functional_extensionality. intros p. rewrite cg_half_t, flat_cg, flat_g, St. destruct (comp c p); [|reflexivity].
      unfold bmul. destruct (_ && _)%bool; ring.
    Qed.
    Lemma flat_f : h_f (cg_half K c s) = (fun _ => v).
    Proof. apply functional_extensionality. intros p. rewrite cg_half_f, flat_cg, flat_t, Sf. unfold bmul. cbn [ROps o0]. ring. Qed.
    Lemma flat_G : h_G (cg_half K c s) = 0.
    Proof.
      rewrite cg_half_G. cbv zeta. rewrite rsum_lsum, lsum_zero.
      - destruct (Nat.ltb _ _); auto. destruct (Rltb _ _); auto.
      - intros p _. rewrite flat_cg, flat_g. unfold bmul. destruct (comp c p); cbn [ROps o0]; ring.
    Qed.
    Lemma flat_clip : clip_tensile K (cg_half K c s) = (fun _ => v).
    Proof.
      apply functional_extensionality. intros p.
      destruct (clip_tensile_cases (cg_half K c s) p) as [[H ->]|[H ->]]; rewrite flat_f in *; lra.
    Qed.
    Lemma flat_nc : any_nc K c (cg_half K c s) = false.
    Proof.
      unfold any_nc. apply rcount_zero. intros p _. unfold nc_set. rewrite Whole. cbn [andb].
      unfold mask_flowing. unfold elastic in El. rewrite El, andb_false_l, orb_false_r. apply andb_false_intro2.
      apply Rltb_false. cbn [ROps o0]. rewrite flat_g. lra.
    Qed.
    Lemma flat_new : new_force K c (cg_half K c s) = spread.
    Proof.
      rewrite elastic_new_force by (auto using flat_nc, cg_half_str). rewrite flat_clip, adjust_force_unfold, Ext.
      pose proof (lt_0_INR _ Count) as CI.
      assert (Z : tot_force c (fun _ => v) = - (INR (c_nsurf c) * v)).
      { rewrite <- whole_sum. unfold tot_force. f_equal. apply lsum_ext. intros p _. rewrite Whole. reflexivity. }
      rewrite Z. assert (NZ : - (INR (c_nsurf c) * v) <> 0) by nra.
      destruct (Reqb _ 0) eqn:E; [apply Reqb_true in E; congruence|]. rewrite spread_flat.
      apply functional_extensionality. intros p. field. split; lra.
    Qed.

    Lemma flat_iter : exists fu, iter K c s = Ok fu
      /\ s_f (fu_state fu) = spread /\ s_u (fu_state fu) = (fun _ => pushed) /\ s_t (fu_state fu) = (fun _ => 0)
      /\ s_off (fu_state fu) = w - h0 /\ s_lastmh (fu_state fu) = Some (Some w)
      /\ (fu_conv fu = true -> Rabs (pushed - w) < c_pentol c)
      /\ (w = pushed -> (forall l, s_lastmh s = Some l -> l = Some w) -> fu_conv fu = true).
    Proof.
      pose proof (lt_0_INR _ Count) as CI. destruct Tol as [T1 [T2 T3]].
      unfold iter, first_half. pose proof El as El'. unfold elastic in El'. rewrite El'. unfold second_half.
      assert (Hmp : max_pres K c (cg_half K c s) = Ok 0).
      { unfold max_pres. rewrite El'. destruct (Nat.ltb O _) eqn:E; [|reflexivity]. exfalso. apply rcount_pos in E.
        destruct E as [p [_ E]]. unfold mask_tensile in E. apply leb_true in E. rewrite flat_f in E. cbn [ROps o0] in E. lra. }
      rewrite Hmp. eexists. split; [reflexivity|]. cbn [fu_conv fu_state s_f s_u s_off s_t s_lastmh].
      split; [exact flat_new|]. split; [cbn [ROps mat]; rewrite flat_new; exact disp_spread|]. split; [exact flat_t|].
      split; [exact flat_off|].
      assert (MH : rmax K (c_ranks c) (comp c) (c_h c) = Some h0) by (apply flat_max; assumption).
      rewrite MH, flat_off. split.
      { f_equal. f_equal. cbn [ROps oadd]. ring. }
      assert (Hpp : pad_pres K c (cg_half K c s) = 0).
      { unfold pad_pres. destruct (Nat.ltb O _) eqn:E; [|reflexivity]. apply rcount_pos in E. destruct E as [p [_ E]].
        unfold pad in E. rewrite Whole in E. discriminate. }
      rewrite cg_half_str, Hpp, Ext. unfold new_G. rewrite cg_half_str, flat_G, flat_new.
      cbn [ROps mat oltb o0 oadd osub omul odiv oopp onat]. rewrite disp_spread, Su.
      assert (DU : rmax K (c_ranks c) (fun _ => true) (fun p => absF K (pushed - w)) = Some (Rabs (pushed - w))).
      { apply flat_max; [reflexivity|]. intros p. apply absF_Rabs. }
      assert (PN : rmax K (c_ranks c) (comp c) (fun p => bmul K (h_c (cg_half K c s) p) (c_h c p + (w - h0) - pushed)) = Some (w - pushed)).
      { apply flat_max; [exact Whole|]. intros p. change (h_c (cg_half K c s) p) with (cg_set K c s p). rewrite flat_cg, Flat. unfold bmul. ring. }
      rewrite DU, PN.
      assert (F1 : rel_lt K (- rsum K (c_ranks c) (fun p => bmul K (comp c p) (spread p)) - Fx)
         (- rsum K (c_ranks c) (fun p => bmul K (comp c p) (spread p))) (c_thermotol c) = true).
      { rewrite rsum_lsum. fold (grid c). fold (tot_force c spread). rewrite tot_spread.
        unfold rel_lt. cbn [ROps oeqb odiv oltb o0]. destruct (Reqb Fx 0) eqn:E; [apply Reqb_true in E; lra|].
        rewrite absF_Rabs. apply Rltb_true. replace ((Fx - Fx) / Fx) with 0 by (field; lra). rewrite Rabs_R0. exact T3. }
      rewrite F1. cbn [andb oltb_inf ROps oltb].
      assert (B1 : Rltb 0 (c_pentol c) = true) by (apply Rltb_true; exact T1).
      assert (B2 : Rltb (if (0 <? h_Acg (cg_half (ROps P) c s))%nat then 0 / INR (h_Acg (cg_half (ROps P) c s)) else 0) (c_pentol c * c_pentol c) = true).
      { apply Rltb_true. assert (0 < c_pentol c * c_pentol c) by (apply Rmult_lt_0_compat; exact T1).
        destruct (Nat.ltb _ _); [|assumption]. unfold Rdiv. rewrite Rmult_0_l. assumption. }
      assert (B4 : Rltb 0 (c_forcetol c) = true) by (apply Rltb_true; exact T2).
      rewrite B1, B2, B4, !andb_true_r. cbn [andb]. split.
      - intros H. apply andb_true_iff in H. destruct H as [_ H]. apply andb_true_iff in H. destruct H as [_ H].
        apply Rltb_true in H. exact H.
      - intros W HL. assert (PP : 0 < pushed).
        { unfold pushed. apply Rmult_lt_0_compat; [exact Kap|]. apply Rdiv_lt_0_compat; assumption. }
        apply andb_true_iff. split; [|apply andb_true_iff; split].
        + destruct (s_lastmh s) as [l|] eqn:LM; [|reflexivity]. rewrite (HL l eq_refl). unfold rel_lt. cbn [ROps oeqb odiv oltb o0 oadd osub].
          replace (h0 + (w - h0)) with w by ring. destruct (Reqb w 0) eqn:E; [apply Reqb_true in E; lra|].
          rewrite absF_Rabs. apply Rltb_true. replace ((w - w) / w) with 0 by (field; lra). rewrite Rabs_R0. exact T3.
        + apply Rltb_true. rewrite maxF_Rmax. unfold Rmax. destruct (Rle_dec 0 (w - pushed)); lra.
        + apply Rltb_true. rewrite W. replace (pushed - pushed) with 0 by ring. rewrite Rabs_R0. exact T1.
    Qed.
  End Flat.

  (** A flat surface takes the load uniformly; three iterations are enough. *)
  Lemma flat_load n h0 kap : (forall p, comp c p = true) -> (forall p, c_h c p = h0) -> 0 < kap ->
    (forall v, c_disp c (fun _ => v) = (fun _ => - kap * v)) -> (forall v, c_force c (fun _ => v) = (fun _ => - v / kap)) ->
    0 < Fx -> c_offset c = 0 -> c_u0 c = None -> c_f0 c = None ->
    c_pentol c <= Rabs (pushed kap - Rmax 0 h0) ->
    exists r, ccg c (S (S (S n))) = Ok r /\ x_success r = true
      /\ x_jac r = (fun _ => Fx / INR (c_nsurf c)) /\ x_x r = (fun _ => pushed kap) /\ x_offset r = pushed kap - h0.
  Proof.
    intros Wh Fl Kp Ds Fc Ld O0 Hu0 Hf0 Far. pose proof (lt_0_INR _ Count) as CI. destruct Tol as [T1 _].
    set (w0 := Rmax 0 h0) in *.
    assert (Hu2 : (fun p => if comp c p then
        (if Rltb 0 (c_h c p + c_offset c) then c_h c p + c_offset c else 0) else 0) = (fun _ => w0)).
    { apply functional_extensionality. intros p. rewrite Wh, Fl, O0, Rplus_0_r. unfold w0, Rmax.
      destruct (Rltb 0 h0) eqn:E; [apply Rltb_true in E|apply Rltb_false in E]; destruct (Rle_dec 0 h0); lra. }
    assert (IU : s_u (init_state K c) = (fun _ => w0)).
    { unfold init_state. cbn [s_u ROps mat oltb oadd o0]. rewrite Hf0, Hu0. exact Hu2. }
    assert (IF : s_f (init_state K c) = (fun _ => - w0 / kap)).
    { unfold init_state. cbn [s_f ROps mat oltb oadd o0]. rewrite Hf0, Hu0, Hu2, Fc. apply functional_extensionality.
      intros p. unfold pad. rewrite Wh. reflexivity. }
    (* first iteration: not converged, the load is spread *)
    assert (I1 : exists fu, iter K c (init_state K c) = Ok fu /\ fu_conv fu = false
       /\ s_f (fu_state fu) = spread /\ s_u (fu_state fu) = (fun _ => pushed kap) /\ s_t (fu_state fu) = (fun _ => 0)).
    { destruct (Rle_lt_dec h0 0) as [Neg|Pos].
      - assert (W0 : w0 = 0) by (unfold w0, Rmax; destruct (Rle_dec 0 h0); lra).
        assert (Z : - w0 / kap = 0) by (rewrite W0; unfold Rdiv; ring). rewrite Z in IF. rewrite W0 in IU, Far.
        destruct (zero_iter (init_state K c) IF IU eq_refl) as (fu & H1 & H2 & H3 & H4 & H5 & H6).
        + intros p _. rewrite Fl. exact Neg.
        + lra.
        + reflexivity.
        + exists fu. split; [exact H1|]. split.
          * destruct (fu_conv fu); [|reflexivity]. exfalso. destruct H6 as [H6 _]. specialize (H6 eq_refl).
            destruct some_point as [p Hp]. specialize (H6 p Hp). rewrite (disp_spread kap) in H6 by assumption.
            replace (pushed kap - 0) with (pushed kap) in Far by ring. lra.
          * rewrite H2, H3, H4. split; [reflexivity|]. split; [|reflexivity]. apply disp_spread; assumption.
      - assert (W0 : w0 = h0) by (unfold w0, Rmax; destruct (Rle_dec 0 h0); lra).
        assert (Z : - w0 / kap < 0).
        { assert (0 < w0 / kap) by (apply Rdiv_lt_0_compat; lra). unfold Rdiv in *. lra. }
        destruct (flat_iter h0 kap Wh Fl Kp Ds Ld (init_state K c) _ _ IF IU eq_refl Z) as (fu & H1 & H2 & H3 & H4 & _ & _ & H7 & _).
        exists fu. split; [exact H1|]. split; [|auto]. destruct (fu_conv fu); [|reflexivity]. specialize (H7 eq_refl). lra. }
    destruct I1 as (f1 & E1 & C1 & A1 & B1 & D1). rewrite (spread_flat Wh) in A1.
    assert (VN : - Fx / INR (c_nsurf c) < 0).
    { assert (0 < Fx / INR (c_nsurf c)) by (apply Rdiv_lt_0_compat; assumption). unfold Rdiv in *. lra. }
    destruct (flat_iter h0 kap Wh Fl Kp Ds Ld (fu_state f1) _ _ A1 B1 D1 VN) as (f2 & E2 & A2 & B2 & D2 & O2 & M2 & _).
    rewrite (spread_flat Wh) in A2.
    destruct (flat_iter h0 kap Wh Fl Kp Ds Ld (fu_state f2) _ _ A2 B2 D2 VN) as (f3 & E3 & A3 & B3 & D3 & O3 & _ & _ & C3).
    assert (C3' : fu_conv f3 = true) by (apply C3; [reflexivity|]; intros l LL; rewrite M2 in LL; congruence). clear C3.
    rewrite (spread_flat Wh) in A3.
    assert (Fin : forall fu, s_f (fu_state fu) = (fun _ => - Fx / INR (c_nsurf c)) -> s_u (fu_state fu) = (fun _ => pushed kap) ->
      s_off (fu_state fu) = pushed kap - h0 ->
      x_success (converged_result K c fu) = true /\ x_jac (converged_result K c fu) = (fun _ => Fx / INR (c_nsurf c))
      /\ x_x (converged_result K c fu) = (fun _ => pushed kap) /\ x_offset (converged_result K c fu) = pushed kap - h0).
    { intros fu X1 X2 X3. cbn [converged_result x_success x_jac x_x x_offset]. rewrite X1, X2, X3. repeat split.
      apply functional_extensionality. intros p. cbn [ROps oopp]. unfold Rdiv. ring. }
    destruct (fu_conv f2) eqn:C2.
    - exists (converged_result K c f2). split; [|apply Fin; assumption].
      unfold ccg, run, run_trace. cbn [loop]. rewrite E1, C1, E2, C2. reflexivity.
    - exists (converged_result K c f3). split; [|apply Fin; assumption].
      unfold ccg, run, run_trace. cbn [loop]. rewrite E1, C1, E2, C2, E3, C3'. reflexivity.
  Qed.

  Lemma light_load n : Fx <> 0 -> c_offset c = 0 -> c_u0 c = None -> c_f0 c = None ->
    (forall p, c_force c (fun _ => 0) p = 0) -> (forall p, c_disp c (fun _ => 0) p = 0) ->
    (forall p, on_surface c p -> c_h c p <= 0) ->
    (forall p, In p (grid c) -> Rabs (c_disp c spread p) < c_pentol c) ->
    exists r, ccg c (S n) = Ok r /\ x_success r = true /\ x_nit r = 1%nat /\
      x_jac r = (fun p => - spread p) /\ x_x r = c_disp c spread /\ x_offset r = 0.
  Proof.
    intros FN O0 Hu0 Hf0 F0 D0 Hh LL.
    assert (Hu2 : (fun p => if comp c p then
        (if Rltb 0 (c_h c p + c_offset c) then c_h c p + c_offset c else 0) else 0) = (fun _ => 0)).
    { apply functional_extensionality. intros p. destruct (comp c p) eqn:E; auto.
      apply comp_spec in E. specialize (Hh p E). destruct (Rltb _ _) eqn:E2; auto.
      apply Rltb_true in E2. lra. }
    destruct (zero_iter (init_state K c)) as (fu & H1 & H2 & H3 & H4 & H5 & H6); auto.
    - unfold init_state. cbn [s_f ROps mat oltb oadd o0]. rewrite Hf0, Hu0, Hu2.
      apply functional_extensionality. intros p. rewrite F0. destruct (pad c p); reflexivity.
    - unfold init_state. cbn [s_u ROps mat oltb oadd o0]. rewrite Hf0, Hu0, Hu2. reflexivity.
    - exists (converged_result K c fu). split; [eapply run_one; [reflexivity|exact H1|apply H6; exact LL]|].
      cbn [converged_result x_success x_jac x_x x_offset x_nit]. rewrite H2, H3, H5. repeat split; auto.
      unfold iter in H1. destruct (first_half K c (init_state K c)) as [h|]; [|discriminate]. unfold second_half in H1.
      destruct (max_pres K c h); [|discriminate]. injection H1 as <-. reflexivity.
  Qed.
End Load.
