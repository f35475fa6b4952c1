From Coq Require Import Reals Lra List Bool Arith Lia Permutation FunctionalExtensionality.
From Verif Require Import CCG_Model CCG_Real CCG_Spec CCG_Proofs CCG_Conv CCG_Results.
Import ListNotations.
Local Open Scope R_scope.

Section Results2.
  Context {P : Type}.
  Notation K := (ROps P).
  Variable c : @cfg R P.

  Lemma elastic_hard : elastic c -> hardness_nonneg c.
  Proof. unfold elastic, hardness_nonneg. intros ->. exact I. Qed.

  Definition main_inv (s : @state R P) : Prop :=
    pad_inv c s /\ (s_nit s = O -> s_delta s = false).

  Lemma main_init : main_inv (init_state K c).
  Proof. split; [apply pad_inv_init|auto]. Qed.
  Lemma main_step : hardness_nonneg c -> forall s fu, main_inv s -> iter K c s = Ok fu -> main_inv (fu_state fu).
  Proof.
    intros Hh s fu [H1 H2] Hi. split; [eapply pad_inv_step; eauto|].
    apply iter_inv in Hi. destruct Hi as (h&mp&_&_&_&_&_&_&_&_&_&En&_). rewrite En. discriminate.
  Qed.

  Lemma total_tot r f : (forall p, x_jac r p = - f p) -> total c r = tot_force c f.
  Proof.
    intros H. unfold total, tot_force. unfold grid.
    induction (concat (c_ranks c)) as [|p l IH]; simpl. unfold lsum; simpl; lra.
    fold (comp c p). unfold lsum in *. simpl. unfold bmul at 1.
    destruct (comp c p); simpl; rewrite IH; [rewrite H|]; simpl; lra.
  Qed.

  (** C04 *)
  Lemma converged_elastic n r : elastic c -> (forall Fx, c_ext c = Some Fx -> 0 <= Fx) ->
    ccg c n = Ok r -> x_success r = true -> x_str r = Cg ->
    (forall p, In p (grid c) -> on_surface c p -> - c_pentol c < gap c r p) /\
    (forall p, 0 <= x_jac r p) /\
    (forall p, x_active r p = false -> x_jac r p = 0 \/
       (exists Fx, c_ext c = Some Fx /\
         forall q, on_surface c q -> x_jac r q = Fx / INR (c_nsurf c))) /\
    (x_tau r <> 0 \/ (x_nit r = 1%nat /\ compliant (grid c) (c_disp c)) ->
     forall p, In p (grid c) -> on_surface c p -> x_active r p = true ->
       Rabs (gap c r p) < c_pentol c * (1 + sqrt (INR (n_active c r)))).
  Proof.
    intros El HF H Hs Hcg.
    apply (run_exit c main_inv (main_step (elastic_hard El))) in H; [|apply main_init].
    destruct H as (s&fu&[Hpad Hd]&Hi&[[Hc ->]| ->]); [|discriminate].
    simpl in Hcg. unfold gap. simpl.
    assert (Hact : forall p, (if is_mix (s_str (fu_state fu)) then
        (fun p => if comp c p then oltb K (h_g (fu_half fu) p) (o0 K) else h_c (fu_half fu) p)
        else h_c (fu_half fu)) p = h_c (fu_half fu) p) by (rewrite Hcg; reflexivity).
    split; [|split; [|split]].
    - intros p Hp Hon. eapply conv_gap; eauto.
    - intros p. pose proof (conv_force_nonneg c El s fu Hi Hcg HF p). lra.
    - intros p Hp. rewrite Hcg in Hp. simpl in Hp.
      destruct (conv_inactive c El s fu Hi Hcg p Hp) as [H|(Fx&E&H)].
      + left. lra.
      + right. exists Fx. split; auto. intros q Hq. apply comp_spec in Hq. rewrite (H q Hq).
        unfold Rdiv. lra.
    - intros Ht p Hp Hon Ha. unfold n_active. simpl. rewrite Hcg in *. simpl in *.
      eapply conv_active; eauto. congruence.
      destruct Ht as [Ht|[Ht1 Ht2]]; [auto|]. right.
      apply iter_inv in Hi. destruct Hi as (h&mp&_&_&_&_&_&_&_&_&_&En&_).
      assert (s_nit s = O) by congruence. split; auto. split; auto. intros q Hq. apply Hpad; auto.
  Qed.

  (** C07 *)
  Lemma lsum_filter_const l m k : lsum (filter m l) (fun _ : P => k) = INR (length (filter m l)) * k.
  Proof.
    induction (filter m l); unfold lsum in *.
    - simpl; lra.
    - cbn [length map fold_right]. rewrite S_INR, IHl0. lra.
  Qed.

  Lemma force_control n r Fx : c_ext c = Some Fx -> hardness_nonneg c ->
    ccg c n = Ok r -> x_success r = true ->
    total c r <> 0 /\ Rabs ((total c r - Fx) / total c r) < c_thermotol c.
  Proof.
    intros HE Hh H Hs.
    apply (run_exit c main_inv (main_step Hh)) in H; [|apply main_init].
    destruct H as (s&fu&_&Hi&[[Hc ->]| ->]); [|discriminate].
    apply iter_inv in Hi. destruct Hi as (h&mp&_&_&_&Ef&_&_&_&_&_&_&_&_&_&_&H2).
    rewrite (total_tot _ (s_f (fu_state fu))) by auto. rewrite Ef.
    destruct (conv_inv c _ _ _ H2 Hc) as (mp'&_&_&_&_&_&H&_). auto.
  Qed.

  Lemma tot_scale f k : tot_force c (fun p => f p * k) = tot_force c f * k.
  Proof.
    unfold tot_force. rewrite <- (Rmult_comm k), <- Ropp_mult_distr_r. f_equal. rewrite <- lsum_scal.
    apply lsum_ext. intros p _. unfold bmul. destruct (comp c p); simpl; lra.
  Qed.

  Lemma force_control_exact n r Fx : c_ext c = Some Fx -> elastic c ->
    ccg c n = Ok r -> x_str r = Cg ->
    total c r = Fx \/ (forall p, on_surface c p -> x_jac r p = Fx / INR (c_nsurf c)).
  Proof.
    intros HE El H Hs.
    apply (run_exit c main_inv (main_step (elastic_hard El))) in H; [|apply main_init].
    destruct H as (s&fu&_&Hi&Hr).
    assert (Hj : x_jac r = (fun p => - s_f (fu_state fu) p) /\ x_str r = s_str (fu_state fu)).
    { destruct Hr as [[_ ->]| ->]; split; reflexivity. }
    destruct Hj as [Hj Hst]. rewrite Hs in Hst. symmetry in Hst.
    apply iter_inv in Hi. destruct Hi as (h&mp&Hf&_&_&Ef&_&_&_&Es&_).
    rewrite Hst in Es. symmetry in Es. apply new_str_cg in Es. destruct Es as [Hm Hn].
    rewrite (elastic_new_force c El h Hm Hn), adjust_force_unfold, HE in Ef.
    rewrite (total_tot _ (s_f (fu_state fu))) by (rewrite Hj; auto).
    destruct (Reqb _ 0) eqn:E.
    - right. intros p Hp. rewrite Hj, Ef. apply comp_spec in Hp. rewrite Hp. unfold Rdiv. lra.
    - left. apply Reqb_false in E. rewrite Ef, tot_scale. field. auto.
  Qed.

  (** C15 *)
  Lemma plastic_bounds n r H : c_hard c = Some (HScalar H) -> 0 <= H -> offset_control c ->
    ccg c n = Ok r -> x_str r <> Sd -> forall p, 0 <= x_jac r p <= H.
  Proof.
    intros Eh HH He Hr Hs p.
    apply (run_exit c (fun _ => True)) in Hr; auto.
    destruct Hr as (s&fu&_&Hi&Hr).
    assert (Hj : x_jac r = (fun p => - s_f (fu_state fu) p) /\ x_str r = s_str (fu_state fu)).
    { destruct Hr as [[_ ->]| ->]; split; reflexivity. }
    destruct Hj as [Hj Hst]. rewrite Hj. rewrite Hst in Hs.
    apply iter_inv in Hi. destruct Hi as (h&mp&Hf&_&_&Ef&_&_&_&Es&_).
    assert (Enf : new_force K c h = clip_flow K c h (clip_tensile K h)).
    { unfold new_force, adjust_force. unfold offset_control in He. rewrite He.
      unfold new_str in Es. destruct (is_mix (h_str h)); auto.
      destruct (any_nc K c h); auto. rewrite Es in Hs. congruence. }
    rewrite Ef, Enf. unfold clip_flow. rewrite Eh. cbn [ROps mat hval oopp].
    destruct (mask_flowing K c h p) eqn:E; [lra|].
    unfold mask_flowing in E. rewrite Eh in E. apply leb_false in E. simpl in E.
    destruct (clip_tensile_cases h p) as [[? ->]|[? ->]]; lra.
  Qed.

  (** ** Exact start *)
  Section Exact.
    Variable q : P -> R.
    Variable off : R.
    Hypothesis Cov : covers c.
    Hypothesis El : elastic c.
    Hypothesis Tol : tolerances_positive c.
    Hypothesis Ex : exact_solution c off q.

    Lemma q_nonneg p : 0 <= q p.
    Proof.
      destruct Ex as [H1 H2]. destruct (comp c p) eqn:E.
      - apply comp_spec in E. destruct (H2 p (Cov p) E) as [? _]; auto.
      - apply comp_false in E. rewrite H1; auto. lra.
    Qed.

    Variable s : @state R P.
    Hypothesis Sf : s_f s = (fun p => - q p).
    Hypothesis Su : s_u s = c_disp c (fun p => - q p).
    Hypothesis St : forall p, comp c p = false -> s_t s p = 0.
    Hypothesis Hoff : h_off (cg_half K c s) = off.

    Lemma ex_cg p : cg_set K c s p = true -> comp c p = true /\ h_g (cg_half K c s) p = 0.
    Proof.
      intros H. rewrite elastic_cg_set in H by auto. apply Rltb_true in H. rewrite Sf in H.
      destruct Ex as [H1 H2].
      destruct (comp c p) eqn:E.
      - split; auto. apply comp_spec in E. destruct (H2 p (Cov p) E) as [_ [_ H3]].
        rewrite cg_half_g, Su, Hoff. apply Rmult_integral in H3. destruct H3; auto. lra.
      - apply comp_false in E. rewrite H1 in H; auto. lra.
    Qed.

    Lemma ex_g2 : rsum K (c_ranks c) (fun p => bmul K (comp c p)
          (bmul K (cg_set K c s p) (h_g (cg_half K c s) p * h_g (cg_half K c s) p))) = 0.
    Proof.
      rewrite rsum_lsum. apply lsum_zero.
      intros p _. unfold bmul. destruct (comp c p); auto. destruct (cg_set K c s p) eqn:E; auto.
      apply ex_cg in E. destruct E as [_ ->]. simpl. lra.
    Qed.
    Lemma ex_t p : h_t (cg_half K c s) p = 0.
    Proof.
      rewrite cg_half_t, ex_g2. destruct (comp c p) eqn:Ec; [|apply St; auto].
      unfold bmul. destruct (cg_set K c s p) eqn:E; auto. apply ex_cg in E. destruct E as [_ ->].
      destruct (_ && _); lra.
    Qed.
    Lemma ex_x : cg_x c s = 0.
    Proof.
      unfold cg_x. rewrite rsum_lsum, lsum_zero; [lra|]. intros p _. unfold bmul. rewrite ex_t.
      destruct (cg_set K c s p); simpl; lra.
    Qed.
    Lemma ex_tau : h_tau (cg_half K c s) = 0.
    Proof.
      rewrite cg_half_tau, ex_x. destruct (Nat.ltb _ _); auto.
      destruct (Rltb 0 0) eqn:E; auto. apply Rltb_true in E. lra.
    Qed.
    Lemma ex_f : h_f (cg_half K c s) = (fun p => - q p).
    Proof.
      apply functional_extensionality. intros p. rewrite cg_half_f, ex_t, Sf. unfold bmul.
      destruct (cg_set K c s p); simpl; lra.
    Qed.
    Lemma ex_G : h_G (cg_half K c s) = 0.
    Proof.
      rewrite cg_half_G. cbv zeta. rewrite ex_g2.
      destruct (Nat.ltb _ _); auto. destruct (Rltb _ _); auto.
    Qed.
    Lemma ex_clip : clip_tensile K (cg_half K c s) = (fun p => - q p).
    Proof.
      apply functional_extensionality. intros p. pose proof (q_nonneg p).
      destruct (clip_tensile_cases (cg_half K c s) p) as [[H1 ->]|[H1 ->]]; rewrite ex_f in *; lra.
    Qed.
    Lemma ex_nc : any_nc K c (cg_half K c s) = false.
    Proof.
      unfold any_nc. apply rcount_zero. intros p Hp. unfold nc_set.
      destruct (comp c p) eqn:Ec; auto. simpl.
      assert (Hg : 0 <= h_g (cg_half K c s) p).
      { rewrite cg_half_g, Su, Hoff. apply comp_spec in Ec. destruct Ex as [_ H2].
        destruct (H2 p (Cov p) Ec) as [_ [H _]]. exact H. }
      unfold mask_flowing. unfold elastic in El. rewrite El. rewrite andb_false_l, orb_false_r.
      apply andb_false_intro2. simpl. apply Rltb_false. auto.
    Qed.

    Hypothesis Htot : forall Fx, c_ext c = Some Fx ->
      Fx = tot_force c (fun p => - q p) /\ Fx <> 0.

    Lemma ex_new : new_force K c (cg_half K c s) = (fun p => - q p).
    Proof.
      rewrite elastic_new_force by (auto using ex_nc, cg_half_str). rewrite ex_clip, adjust_force_unfold.
      destruct (c_ext c) as [Fx|]; auto. destruct (Htot Fx eq_refl) as [H1 H2].
      destruct (Reqb _ 0) eqn:E.
      - apply Reqb_true in E. congruence.
      - apply functional_extensionality. intros p. rewrite <- H1. field. auto.
    Qed.

    Hypothesis Hlast : s_lasttf s = None \/
      (s_lasttf s = Some (tot_force c (fun p => - q p)) /\ tot_force c (fun p => - q p) <> 0).
    Hypothesis Hlastmh : s_lastmh s = None \/ c_ext c = None \/
      exists v, rmax K (c_ranks c) (comp c) (c_h c) = Some v /\
        s_lastmh s = Some (Some (v + off)) /\ v + off <> 0.

    Lemma rmax_none rk m phi : Nat.ltb O (rcount rk m) = true -> exists v, rmax K rk m phi = Some v.
    Proof.
      intros H. apply rcount_pos in H. destruct H as [p [Hp Hm]].
      destruct (rmax_ge rk m phi p Hp Hm) as [v [E _]]. eauto.
    Qed.
    Lemma rmax_const0 rk m (phi : P -> R) : (forall p, In p (concat rk) -> m p = true -> phi p = 0) ->
      match rmax K rk m phi with Some x => x | None => 0 end = 0.
    Proof.
      intros H. pose proof (rmax_is_max rk m phi) as M. destruct (rmax K rk m phi) as [v|]; auto.
      destruct M as [_ [p [Hp <-]]]. apply filter_In in Hp. destruct Hp. auto.
    Qed.

    Lemma ex_iter : exists fu, iter K c s = Ok fu /\ fu_conv fu = true /\
      s_f (fu_state fu) = (fun p => - q p) /\ s_u (fu_state fu) = c_disp c (fun p => - q p) /\
      s_off (fu_state fu) = off /\ s_nit (fu_state fu) = S (s_nit s) /\ s_str (fu_state fu) = Cg.
    Proof.
      destruct Tol as [T1 [T2 T3]].
      unfold iter, first_half. pose proof El as El'. unfold elastic in El'. rewrite El'.
      unfold second_half.
      assert (Hmp : max_pres K c (cg_half K c s) = Ok 0).
      { unfold max_pres. rewrite El'.
        destruct (Nat.ltb O (rcount (c_ranks c) (mask_tensile K (cg_half K c s)))) eqn:E; auto.
        rewrite rmax_const0; auto. intros p _ Hm. unfold mask_tensile in Hm. apply leb_true in Hm.
        rewrite ex_f in *. simpl in Hm. pose proof (q_nonneg p). lra. }
      rewrite Hmp. eexists. split; [reflexivity|].
      cbn [fu_conv fu_state s_f s_u s_off s_nit s_str].
      assert (Hpp : pad_pres K c (cg_half K c s) = 0).
      { unfold pad_pres. destruct (Nat.ltb _ _); auto. apply rmax_const0. intros p _ Hp.
        rewrite absF_Rabs, ex_f. unfold pad in Hp. apply negb_true_iff in Hp.
        destruct Ex as [H1 _]. apply comp_false in Hp. rewrite H1; auto. rewrite Ropp_0. apply Rabs_R0. }
      split; [|split; [|split; [|split; [|split]]]].
      2: { apply ex_new. }
      2: { cbn [ROps mat]. rewrite ex_new. reflexivity. }
      2: { auto. }
      2: { auto. }
      2: { unfold new_str. now rewrite cg_half_str, ex_nc. }
      rewrite cg_half_str, Hpp. unfold new_G. rewrite cg_half_str, ex_G, ex_new.
      cbn [ROps mat oltb o0 oadd osub omul odiv oopp onat].
      apply andb_true_iff. split; [apply andb_true_iff; split|].
      - assert (Hr : forall x, x <> 0 -> rel_lt K (x - x) x (c_thermotol c) = true).
        { intros x Hx. unfold rel_lt. cbn [ROps oeqb odiv oltb o0].
          destruct (Reqb x 0) eqn:E; [apply Reqb_true in E; congruence|].
          rewrite absF_Rabs. apply Rltb_true. replace ((x - x) / x) with 0 by (field; auto).
          rewrite Rabs_R0. auto. }
        rewrite rsum_lsum. fold (grid c). fold (tot_force c (fun p => - q p)).
        destruct (c_ext c) as [Fx|] eqn:EE.
        + destruct (Htot Fx eq_refl) as [H1 H2]. rewrite <- H1. apply Hr; auto.
        + destruct Hlast as [-> |[-> Hx]]; auto.
      - destruct (c_ext c); auto. destruct Hlastmh as [-> |[Hx|(v&Hv&->&Hv0)]]; [auto|discriminate|].
        rewrite Hv, Hoff. cbn [ROps oadd osub]. unfold rel_lt. cbn [ROps oeqb odiv oltb o0].
        destruct (Reqb (v + off) 0) eqn:E; [apply Reqb_true in E; congruence|].
        rewrite absF_Rabs. apply Rltb_true. replace ((v + off - (v + off)) / (v + off)) with 0 by (field; auto).
        rewrite Rabs_R0. auto.
      - repeat (apply andb_true_iff; split).
        + apply Rltb_true; auto.
        + apply Rltb_true. assert (0 < c_pentol c * c_pentol c) by (apply Rmult_lt_0_compat; auto).
          destruct (Nat.ltb _ _); auto. unfold Rdiv. rewrite Rmult_0_l. auto.
        + apply Rltb_true. rewrite Hoff.
          match goal with |- match rmax K ?rk ?m ?phi with _ => _ end < _ =>
            pose proof (rmax_const0 rk m phi) as M; destruct (rmax K rk m phi) end; auto.
          rewrite M. rewrite maxF_Rmax. unfold Rmax. destruct (Rle_dec 0 0); auto.
          intros p _ Hc. change (h_c (cg_half K c s) p) with (cg_set K c s p).
          unfold bmul. destruct (cg_set K c s p) eqn:E; auto.
          apply ex_cg in E. destruct E as [_ E]. rewrite cg_half_g, Su, Hoff in E. lra.
        + apply rmax_lt. intros p _ _. rewrite absF_Rabs, Su.
          replace (c_disp c (fun p0 => - q p0) p - c_disp c (fun p0 => - q p0) p) with 0 by ring.
          rewrite Rabs_R0. auto.
        + apply Rltb_true; auto.
        + apply Rltb_true; auto.
    Qed.
  End Exact.

  Lemma run_one s fu n : init_state K c = s -> iter K c s = Ok fu -> fu_conv fu = true ->
    ccg c (S n) = Ok (converged_result K c fu).
  Proof. intros E H Hc. unfold ccg, run, run_trace. simpl. rewrite E, H, Hc. reflexivity. Qed.

  Lemma exact_fixed_point q n : covers c -> elastic c -> tolerances_positive c -> offset_control c ->
    exact_solution c (c_offset c) q -> c_f0 c = Some (fun p => - q p) ->
    exists r, ccg c (S n) = Ok r /\ x_success r = true /\ x_nit r = 1%nat /\
      x_jac r = q /\ x_x r = c_disp c (fun p => - q p) /\ x_offset r = c_offset c.
  Proof.
    intros Cov El Tol He Ex Hf.
    destruct (ex_iter q (c_offset c) Cov El Tol Ex (init_state K c)) as (fu&H1&H2&H3&H4&H5&H6&H7).
    - unfold init_state. cbn [s_f ROps mat]. rewrite Hf. apply functional_extensionality. intros p.
      unfold pad. destruct (comp c p) eqn:E; auto. simpl. apply comp_false in E. destruct Ex as [H1 _].
      rewrite H1; auto. lra.
    - unfold init_state. cbn [s_u ROps mat]. rewrite Hf. reflexivity.
    - reflexivity.
    - rewrite cg_half_off. unfold offset_control in He. rewrite He. reflexivity.
    - intros Fx E. unfold offset_control in He. congruence.
    - left; reflexivity.
    - left; reflexivity.
    - eexists. split; [eapply run_one; eauto|]. simpl. rewrite H3, H4, H5, H6. repeat split; auto.
      apply functional_extensionality. intros p. lra.
  Qed.

  Lemma exact_fixed_point_force q off Fx n : covers c -> elastic c -> tolerances_positive c ->
    c_ext c = Some Fx -> (exists p, 0 < q p) ->
    lsum (filter (fun p => c_slice c p && negb (c_masked c p)) (grid c)) q = Fx ->
    exact_solution c off q -> c_f0 c = Some (fun p => - q p) ->
    exists r, ccg c (S n) = Ok r /\ x_success r = true /\ x_nit r = 1%nat /\
      x_jac r = q /\ x_x r = c_disp c (fun p => - q p) /\ x_offset r = off.
  Proof.
    intros Cov El Tol He [p0 Hp0] HF Ex Hf.
    set (s := init_state K c).
    assert (Sf : s_f s = (fun p => - q p)).
    { unfold s, init_state. cbn [s_f ROps mat]. rewrite Hf. apply functional_extensionality. intros p.
      unfold pad. destruct (comp c p) eqn:E; auto. simpl. apply comp_false in E. destruct Ex as [H1 _].
      rewrite H1; auto. lra. }
    assert (Su : s_u s = c_disp c (fun p => - q p)).
    { unfold s, init_state. cbn [s_u ROps mat]. rewrite Hf. reflexivity. }
    assert (Hp0c : comp c p0 = true).
    { destruct (comp c p0) eqn:E; auto. apply comp_false in E. destruct Ex as [H1 _]. rewrite H1 in Hp0; auto. lra. }
    assert (Htf : tot_force c (fun p => - q p) = Fx).
    { rewrite <- HF. unfold tot_force. clear. induction (grid c) as [|p l IH]; [unfold lsum; simpl; lra|].
      unfold lsum in *; simpl. fold (comp c p). unfold bmul at 1. destruct (comp c p); simpl; lra. }
    assert (Hoff : h_off (cg_half K c s) = off).
    { rewrite cg_half_off, He.
      assert (Hc : Nat.ltb O (rcount (c_ranks c) (cg_set K c s)) = true).
      { apply rcount_pos. exists p0. split; [apply Cov|]. rewrite elastic_cg_set by auto.
        apply Rltb_true. rewrite Sf. lra. }
      rewrite Hc, rsum_lsum, rcount_length. fold (grid c).
      assert (E : lsum (grid c) (fun p => bmul K (comp c p && cg_set K c s p) (s_u s p - c_h c p))
                  = INR (length (filter (cg_set K c s) (grid c))) * off).
      { rewrite <- lsum_filter_const. 
        assert (forall p, bmul K (comp c p && cg_set K c s p) (s_u s p - c_h c p) =
                          if cg_set K c s p then off else 0).
        { intros p. destruct (cg_set K c s p) eqn:E; [|rewrite andb_false_r; reflexivity].
          rewrite elastic_cg_set in E by auto. apply Rltb_true in E. rewrite Sf in E.
          destruct Ex as [H1 H2]. destruct (comp c p) eqn:Ec.
          - cbn [andb]. unfold bmul. apply comp_spec in Ec. destruct (H2 p (Cov p) Ec) as [_ [_ H3]].
            rewrite Su. apply Rmult_integral in H3. destruct H3; lra.
          - apply comp_false in Ec. rewrite H1 in E; auto. lra. }
        rewrite (lsum_ext _ _ _ (fun p _ => H p)). clear.
        induction (grid c) as [|p l IH]; auto. unfold lsum in *. simpl.
        destruct (cg_set K c s p); simpl; rewrite IH; lra. }
      rewrite E. field. apply not_0_INR. rewrite rcount_length in Hc. apply Nat.ltb_lt in Hc. unfold grid. lia. }
    destruct (ex_iter q off Cov El Tol Ex s Sf Su (fun _ _ => eq_refl) Hoff) as (fu&H1&H2&H3&H4&H5&H6&H7); try (left; reflexivity).
    - intros Fx' E. rewrite He in E. injection E as <-. split; auto.
      assert (0 < Fx); [|lra]. rewrite <- HF.
      assert (q p0 <= lsum (filter (fun p => c_slice c p && negb (c_masked c p)) (grid c)) q); [|lra].
      apply lsum_nonneg_ge.
      + intros p _. apply (q_nonneg q off); auto.
      + apply filter_In. split; [apply Cov|]. exact Hp0c.
    - eexists. split; [eapply (run_one s); eauto; reflexivity|]. simpl. rewrite H3, H4, H5, H6. repeat split; auto.
      apply functional_extensionality. intros p. lra.
  Qed.

  Lemma no_contact n : covers c -> elastic c -> tolerances_positive c -> offset_control c ->
    c_u0 c = None -> c_f0 c = None ->
    (forall p, c_force c (fun _ => 0) p = 0) -> (forall p, c_disp c (fun _ => 0) p = 0) ->
    (forall p, on_surface c p -> c_h c p + c_offset c <= 0) ->
    exists r, ccg c (S n) = Ok r /\ x_success r = true /\ x_nit r = 1%nat /\
      (forall p, x_jac r p = 0) /\ (forall p, x_x r p = 0).
  Proof.
    intros Cov El Tol He Hu0 Hf0 F0 D0 Hh.
    assert (D0' : c_disp c (fun _ => - 0) = (fun _ => 0)).
    { rewrite Ropp_0. apply functional_extensionality. auto. }
    assert (Hu2 : (fun p => if comp c p then
        (if Rltb 0 (c_h c p + c_offset c) then c_h c p + c_offset c else 0) else 0) = (fun _ => 0)).
    { apply functional_extensionality. intros p. destruct (comp c p) eqn:E; auto.
      apply comp_spec in E. specialize (Hh p E). destruct (Rltb _ _) eqn:E2; auto.
      apply Rltb_true in E2. lra. }
    destruct (ex_iter (fun _ => 0) (c_offset c) Cov El Tol) with (s := init_state K c)
       as (fu&H1&H2&H3&H4&H5&H6&H7).
    - split; auto. intros p _ Hon. rewrite D0'. specialize (Hh p Hon). lra.
    - unfold init_state. cbn [s_f ROps mat oltb oadd o0]. rewrite Hf0, Hu0, Hu2.
      apply functional_extensionality. intros p. rewrite F0. destruct (pad c p); lra.
    - unfold init_state. cbn [s_u ROps mat oltb oadd o0]. rewrite Hf0, Hu0, Hu2, D0'. reflexivity.
    - reflexivity.
    - rewrite cg_half_off. unfold offset_control in He. rewrite He. reflexivity.
    - intros Fx E. unfold offset_control in He. congruence.
    - left; reflexivity.
    - left; reflexivity.
    - eexists. split; [eapply run_one; eauto|]. simpl. rewrite H3, H4, H6, D0'. repeat split; auto.
      intros; lra.
  Qed.

  (** ** Line search *)
  Lemma lsum_filter l m phi : lsum (filter m l) phi = lsum l (fun p : P => if m p then phi p else 0).
  Proof.
    induction l; auto. unfold lsum in *. simpl. destruct (m a); simpl; rewrite IHl; lra.
  Qed.

  Lemma ce_line off f t k : linear (c_disp c) -> self_adjoint (grid c) (c_disp c) ->
    (forall p, comp c p = false -> t p = 0) ->
    complementary_energy c off (fun p => f p + k * t p) =
    complementary_energy c off f
    - k * lsum (grid c) (fun p => t p * (c_disp c f p - c_h c p - off))
    - / 2 * k * k * lsum (grid c) (fun p => t p * c_disp c t p).
  Proof.
    intros [La Ls] Sa Ht. unfold complementary_energy. rewrite !lsum_filter.
    assert (E1 : lsum (grid c) (fun p => (f p + k * t p) * c_disp c (fun q => f q + k * t q) p) =
       lsum (grid c) (fun p => f p * c_disp c f p) + 2 * k * lsum (grid c) (fun p => t p * c_disp c f p)
       + k * k * lsum (grid c) (fun p => t p * c_disp c t p)).
    { rewrite (lsum_ext _ _ (fun p => (f p * c_disp c f p + k * (f p * c_disp c t p)) +
         (k * (t p * c_disp c f p) + (k * k) * (t p * c_disp c t p)))).
      - rewrite !lsum_plus, !lsum_scal, (Sa f t). ring.
      - intros p _. rewrite (La f (fun q => k * t q)), Ls. ring. }
    rewrite E1.
    rewrite (lsum_ext _ (fun p => t p * (c_disp c f p - c_h c p - off))
       (fun p => t p * c_disp c f p + (-1) * (if comp c p then t p * (c_h c p + off) else 0))).
    2: { intros p _. destruct (comp c p) eqn:E; [ring|]. rewrite (Ht p E). ring. }
    rewrite (lsum_ext _ (fun p => if c_slice c p && negb (c_masked c p)
        then (f p + k * t p) * (c_h c p + off) else 0)
       (fun p => (if c_slice c p && negb (c_masked c p) then f p * (c_h c p + off) else 0) +
                 k * (if comp c p then t p * (c_h c p + off) else 0))).
    2: { intros p _. fold (comp c p). destruct (comp c p); ring. }
    rewrite !lsum_plus, !lsum_scal. lra.
  Qed.

  Lemma after_inv k s : hardness_nonneg c -> after c k = Ok s -> (1 <= k)%nat ->
    pad_inv c s /\ s_u s = c_disp c (s_f s).
  Proof.
    intros Hh. revert s. induction k; intros s H Hk; [lia|]. simpl in H.
    destruct (after c k) as [s0|] eqn:E; [|discriminate].
    destruct (iter K c s0) as [fu|] eqn:Ei; [|discriminate]. injection H as <-.
    assert (pad_inv c s0).
    { destruct k; [injection E as <-; apply pad_inv_init|]. apply IHk; auto. lia. }
    split; [eapply pad_inv_step; eauto|].
    apply iter_inv in Ei. destruct Ei as (h&mp&_&_&_&Ef&Eu&_). congruence.
  Qed.

  Lemma line_search k s : hardness_nonneg c -> offset_control c ->
    linear (c_disp c) -> self_adjoint (grid c) (c_disp c) -> compliant (grid c) (c_disp c) ->
    after c k = Ok s -> (1 <= k)%nat ->
    let h := cg_half K c s in
    forall tau', complementary_energy c (s_off s) (h_f h) <=
      complementary_energy c (s_off s) (fun p => s_f s p + tau' * h_t h p).
  Proof.
    intros Hh He Li Sa Co Ha Hk h tau'. destruct (after_inv k s Hh Ha Hk) as [Hpad Hu].
    assert (Ht : forall p, comp c p = false -> h_t h p = 0).
    { intros p Hp. unfold h. rewrite cg_half_t, Hp. apply Hpad; auto. }
    assert (Ht2 : forall p, cg_set K c s p = false -> h_t h p = 0).
    { intros p Hp. destruct (comp c p) eqn:E; auto. unfold h. rewrite cg_half_t, E, Hp. reflexivity. }
    assert (Ef : h_f h = (fun p => s_f s p + h_tau h * h_t h p)).
    { apply functional_extensionality. intros p. unfold h at 1. rewrite cg_half_f. fold h.
      unfold bmul. destruct (cg_set K c s p) eqn:E; auto. rewrite (Ht2 p E). simpl. lra. }
    rewrite Ef, !ce_line by auto.
    set (A := lsum (grid c) (fun p => h_t h p * (c_disp c (s_f s) p - c_h c p - s_off s))).
    set (B := lsum (grid c) (fun p => h_t h p * c_disp c (h_t h) p)).
    assert (Hx : cg_x c s = - B).
    { unfold cg_x, B. rewrite rsum_lsum. f_equal. apply lsum_ext. intros p _. fold h. unfold bmul.
      destruct (cg_set K c s p) eqn:E; [ring|]. rewrite (Ht2 p E). simpl; ring. }
    assert (HA : rsum K (c_ranks c) (fun p => bmul K (comp c p)
          (bmul K (cg_set K c s p) (h_g h p * h_t h p))) = A).
    { rewrite rsum_lsum. apply lsum_ext. intros p _.
      assert (Eg : h_g h p = c_disp c (s_f s) p - c_h c p - s_off s).
      { unfold h. rewrite cg_half_g, cg_half_off, Hu. unfold offset_control in He. rewrite He. reflexivity. }
      rewrite Eg. unfold bmul. destruct (comp c p) eqn:E1; [|rewrite (Ht p E1); simpl; ring].
      destruct (cg_set K c s p) eqn:E2; [ring|]. rewrite (Ht2 p E2). simpl; ring. }
    assert (Hz : B = 0 \/ 0 < - B).
    { destruct (Rltb 0 (-B)) eqn:E; [right; apply Rltb_true; auto|].
      left. apply Rltb_false in E.
      assert (forall p, In p (grid c) -> h_t h p = 0).
      { intros p Hp. destruct (Req_EM_T (h_t h p) 0); auto. exfalso.
        assert (0 < - B); [|lra]. apply Co. eauto. }
      unfold B. apply lsum_zero. intros p Hp. rewrite H by auto. ring. }
    assert (Hz2 : B = 0 -> A = 0).
    { intros E. unfold A. apply lsum_zero. intros p Hp.
      destruct (Req_EM_T (h_t h p) 0) as [->|Hn]; [ring|]. exfalso.
      assert (0 < - B); [|lra]. apply Co. eauto. }
    pose proof (cg_half_tau c s) as Htau. fold h in Htau. rewrite Hx, HA in Htau.
    destruct Hz as [HB|HB].
    - rewrite (Hz2 HB), HB. lra.
    - assert (E : Rltb 0 (- B) = true) by (apply Rltb_true; auto). rewrite E in Htau.
      assert (Hc : Nat.ltb O (rcount (c_ranks c) (cg_set K c s)) = true).
      { destruct (Nat.ltb _ _) eqn:Ec; auto. rewrite rcount_zero in Ec.
        assert (B = 0); [|lra]. unfold B. apply lsum_zero. intros p Hp. rewrite (Ht2 p (Ec p Hp)). ring. }
      rewrite Hc in Htau.
      assert (HAt : A = h_tau h * (- B)) by (rewrite Htau; field; lra).
      rewrite HAt. set (b := - B) in *. replace B with (- b) by (unfold b; ring).
      assert (0 <= b * ((h_tau h - tau') * (h_tau h - tau'))).
      { apply Rmult_le_pos; [lra|]. apply Rle_0_sqr. }
      lra.
  Qed.

  (** ** Accuracy *)
  Lemma accuracy n r q : covers c -> elastic c -> offset_control c -> linear (c_disp c) ->
    ccg c n = Ok r -> x_success r = true -> x_str r = Cg ->
    x_tau r <> 0 \/ (x_nit r = 1%nat /\ compliant (grid c) (c_disp c)) ->
    exact_solution c (c_offset c) q ->
    - lsum (grid c) (fun p => (x_jac r p - q p) * c_disp c (fun p => x_jac r p - q p) p)
    <= c_pentol c * (1 + sqrt (INR (n_active c r))) * total c r
       + c_pentol c * lsum (grid c) q.
  Proof.
    intros Cov El He [La Ls] H Hs Hcg Ht Ex.
    assert (HF : forall Fx, c_ext c = Some Fx -> 0 <= Fx).
    { intros Fx E. unfold offset_control in He. congruence. }
    pose proof (offset_kept c n r He H) as Hoff.
    destruct (converged_elastic n r El HF H Hs Hcg) as (Hgap&Hnn&Hin&Hact). specialize (Hact Ht).
    destruct (result_consistent c n r (elastic_hard El) H) as (Hz&Hx&_).
    assert (Hx' : x_x r = c_disp c (fun p => - x_jac r p)).
    { rewrite Hx. f_equal. apply functional_extensionality. intros p.
      destruct (c_slice c p) eqn:E; auto. rewrite Hz; [lra|]. unfold on_surface. rewrite E. intros [? _]; discriminate. }
    set (b := c_pentol c * (1 + sqrt (INR (n_active c r)))) in *.
    unfold total. rewrite lsum_filter, <- !lsum_scal, <- lsum_plus, <- lsum_opp.
    apply lsum_le. intros p _.
    assert (ED : c_disp c (fun p => x_jac r p - q p) p
                 = - c_disp c (fun p => - x_jac r p) p + c_disp c (fun p => - q p) p).
    { replace (fun p => x_jac r p - q p) with (fun p => (-1) * (- x_jac r p) + (- q p))
        by (apply functional_extensionality; intros; ring).
      rewrite (La (fun p => (-1) * (- x_jac r p)) (fun p => - q p)), (Ls (-1) (fun p => - x_jac r p)). ring. }
    rewrite ED, <- Hx'. destruct Ex as [Ex1 Ex2].
    fold (comp c p). destruct (comp c p) eqn:E.
    - apply comp_spec in E. destruct (Ex2 p (Cov p) E) as (q0&q1&q2).
      specialize (Hgap p (Cov p) E). specialize (Hnn p).
      unfold gap in *. rewrite Hoff in *.
      set (U := c_disp c (fun p => - q p) p) in *. set (j := x_jac r p) in *. set (Q := q p) in *.
      set (gp := x_x r p - c_h c p - c_offset c) in *. set (gq := U - c_h c p - c_offset c) in *.
      replace (- ((j - Q) * (- x_x r p + U))) with ((j - Q) * (gp - gq)) by (unfold gp, gq; ring).
      assert (Hj : j * gp <= b * j).
      { destruct (x_active r p) eqn:Ea.
        - specialize (Hact p (Cov p) E Ea). fold gp in Hact.
          apply Rabs_def2 in Hact. nra.
        - destruct (Hin p Ea) as [Hj|(Fx&EF&_)].
          + fold j in Hj. rewrite Hj. lra.
          + unfold offset_control in He. congruence. }
      assert (0 <= j * gq) by (apply Rmult_le_pos; auto).
      assert (- (Q * gp) <= c_pentol c * Q) by nra. lra.
    - apply comp_false in E. rewrite Ex1 by auto. rewrite Hz by auto. lra.
  Qed.
End Results2.
