(** What a converging iteration guarantees. *)
From Coq Require Import Reals Lra List Bool Arith Lia Permutation FunctionalExtensionality.
From Verif Require Import CCG_Model CCG_Real CCG_Spec CCG_Proofs.
Import ListNotations.
Local Open Scope R_scope.

Section Conv.
  Context {P : Type}.
  Notation K := (ROps P).
  Variable c : @cfg R P.

  Definition tot_force (f : P -> R) : R := - lsum (grid c) (fun p => bmul K (comp c p) (f p)).

  Lemma rel_lt_inv num den tol : rel_lt K num den tol = true -> den <> 0 /\ Rabs (num / den) < tol.
  Proof.
    unfold rel_lt. cbn [oeqb ROps o0]. destruct (Reqb den 0) eqn:E; [discriminate|].
    apply Reqb_false in E. rewrite absF_Rabs. cbn [oltb ROps odiv]. rewrite Rltb_true. auto.
  Qed.

  Lemma conv_inv s h fu : second_half K c s h = Ok fu -> fu_conv fu = true ->
    exists mp, max_pres K c h = Ok mp /\ mp < c_forcetol c /\ pad_pres K c h < c_forcetol c /\
    (forall p, In p (grid c) -> Rabs (c_disp c (new_force K c h) p - s_u s p) < c_pentol c) /\
    (is_mix (h_str h) = false ->
       0 < c_pentol c /\
       (if Nat.ltb O (h_Acg h) then h_G h / INR (h_Acg h) else h_G h) < c_pentol c * c_pentol c /\
       (forall p, In p (grid c) -> comp c p = true -> h_c h p = true ->
          c_h c p + h_off h - c_disp c (new_force K c h) p < c_pentol c)) /\
    (forall Fx, c_ext c = Some Fx ->
       tot_force (new_force K c h) <> 0 /\
       Rabs ((tot_force (new_force K c h) - Fx) / tot_force (new_force K c h)) < c_thermotol c) /\
    (c_ext c = None -> forall l, s_lasttf s = Some l ->
       tot_force (new_force K c h) <> 0 /\
       Rabs ((tot_force (new_force K c h) - l) / tot_force (new_force K c h)) < c_thermotol c).
  Proof.
    unfold second_half. destruct (max_pres K c h) as [mp|]; [|discriminate].
    intros H; injection H as <-. cbn [fu_conv]. intros H.
    apply andb_true_iff in H. destruct H as [H Htol].
    apply andb_true_iff in H. destruct H as [Hforce _].
    exists mp. split; [reflexivity|].
    assert (Hcommon : mp < c_forcetol c /\ pad_pres K c h < c_forcetol c /\
       (forall p, In p (grid c) -> Rabs (c_disp c (new_force K c h) p - s_u s p) < c_pentol c)).
    { assert (G : oltb_inf K (rmax K (c_ranks c) (fun _ => true)
                   (fun p => absF K (c_disp c (new_force K c h) p - s_u s p))) (c_pentol c) = true /\
                  Rltb mp (c_forcetol c) = true /\ Rltb (pad_pres K c h) (c_forcetol c) = true).
      { destruct (is_mix (h_str h)); rewrite !andb_true_iff in Htol; cbn [ROps mat oltb] in Htol; tauto. }
      destruct G as [G1 [G2 G3]]. apply Rltb_true in G2. apply Rltb_true in G3.
      repeat split; auto. intros p Hp. rewrite rmax_lt in G1.
      specialize (G1 p Hp eq_refl). now rewrite absF_Rabs in G1. }
    destruct Hcommon as [H1 [H2 H3]]. do 3 (split; [assumption|]). split; [|split].
    - intros Hm. rewrite Hm in Htol. unfold new_G in Htol. rewrite Hm in Htol.
      rewrite !andb_true_iff in Htol. cbn [ROps mat oltb o0 odiv omul onat] in Htol.
      destruct Htol as [[[[[T1 T2] T3] _] _] _].
      apply Rltb_true in T1. apply Rltb_true in T2. apply Rltb_true in T3.
      split; [assumption|]. split; [destruct (Nat.ltb O (h_Acg h)); assumption|].
      intros p Hp Hc Hcr.
      destruct (rmax_ge (c_ranks c) (comp c)
         (fun p => bmul K (h_c h p) (c_h c p + h_off h - c_disp c (new_force K c h) p)) p Hp Hc)
        as [v [Ev Hv]].
      cbn [osub oadd ROps] in T3. rewrite Ev in T3.
      rewrite maxF_Rmax in T3. rewrite Hcr in Hv. unfold bmul in Hv.
      pose proof (Rmax_r 0 v). simpl in T3. lra.
    - intros Fx E. rewrite E in Hforce. apply rel_lt_inv in Hforce.
      rewrite rsum_lsum in Hforce. exact Hforce.
    - intros E l El. rewrite E, El in Hforce. apply rel_lt_inv in Hforce.
      rewrite rsum_lsum in Hforce. exact Hforce.
  Qed.

  (** ** The elastic case *)
  Lemma elastic_first s h : elastic c -> first_half K c s = Ok h -> h = cg_half K c s.
  Proof. unfold elastic, first_half. intros ->. intros H; injection H; auto. Qed.

  Lemma elastic_cg_set s p : elastic c -> cg_set K c s p = Rltb (s_f s p) 0.
  Proof. unfold elastic, cg_set. intros ->. reflexivity. Qed.

  (** Forces outside the active set are untouched by the line search. *)
  Lemma cg_inactive s p : cg_set K c s p = false -> h_f (cg_half K c s) p = s_f s p.
  Proof. intros H. rewrite cg_half_f, H. unfold bmul. simpl. lra. Qed.

  Lemma no_nc h : any_nc K c h = false -> forall p, In p (grid c) -> nc_set K c h p = false.
  Proof. unfold any_nc. rewrite rcount_zero. auto. Qed.

  Lemma new_str_cg h : new_str K c h = Cg -> is_mix (h_str h) = false /\ any_nc K c h = false.
  Proof. unfold new_str. destruct (is_mix (h_str h)), (any_nc K c h); intros; try discriminate; auto. Qed.

  Lemma clip_tensile_cases h p :
    (h_f h p < 0 /\ clip_tensile K h p = h_f h p) \/ (0 <= h_f h p /\ clip_tensile K h p = 0).
  Proof.
    unfold clip_tensile, mask_tensile. simpl. destruct (leb K 0 (h_f h p)) eqn:E.
    - apply leb_true in E. auto.
    - apply leb_false in E. auto.
  Qed.
  Lemma clip_tensile_nonpos h p : clip_tensile K h p <= 0.
  Proof. destruct (clip_tensile_cases h p) as [[? ->]|[? ->]]; lra. Qed.

  Lemma tot_nonneg f : (forall p, f p <= 0) -> 0 <= tot_force f.
  Proof.
    intros H. unfold tot_force. rewrite <- lsum_opp. apply lsum_nonneg. intros p _.
    unfold bmul. destruct (comp c p); simpl; [specialize (H p)|]; lra.
  Qed.

  Lemma adjust_force_unfold f : adjust_force K c f =
    match c_ext c with
    | None => f
    | Some Fx => if Reqb (tot_force f) 0
                 then (fun p => if comp c p then - Fx / INR (c_nsurf c) else 0)
                 else (fun p => f p * (Fx / tot_force f))
    end.
  Proof.
    unfold adjust_force. destruct (c_ext c); auto. cbn [ROps mat oopp oeqb o0 omul odiv onat].
    rewrite rsum_lsum. fold (grid c). fold (tot_force f).
    destruct (Reqb (tot_force f) 0); auto.
    apply functional_extensionality; intros p. unfold pad. destruct (comp c p); auto.
  Qed.

  Lemma adjust_nonpos f : (forall Fx, c_ext c = Some Fx -> 0 <= Fx) ->
    (forall p, f p <= 0) -> forall p, adjust_force K c f p <= 0.
  Proof.
    intros HF H p. rewrite adjust_force_unfold. destruct (c_ext c) as [Fx|]; auto.
    specialize (HF Fx eq_refl). pose proof (tot_nonneg f H) as Ht.
    destruct (Reqb (tot_force f) 0) eqn:E.
    - destruct (comp c p); [|lra].
      assert (0 <= Fx / INR (c_nsurf c)); [|unfold Rdiv in *; lra].
      destruct (c_nsurf c) as [|n].
      + simpl. unfold Rdiv. rewrite Rinv_0. lra.
      + apply Rmult_le_pos; auto. left. apply Rinv_0_lt_compat. apply lt_0_INR. lia.
    - apply Reqb_false in E.
      assert (0 <= Fx / tot_force f).
      { apply Rmult_le_pos; auto. left. apply Rinv_0_lt_compat. lra. }
      specialize (H p). nra.
  Qed.

  (** The converging iteration of an elastic run with unchanged contact area. *)
  Section Elastic.
    Hypothesis El : elastic c.

    Lemma elastic_new_force h : is_mix (h_str h) = false -> any_nc K c h = false ->
      new_force K c h = adjust_force K c (clip_tensile K h).
    Proof. intros H1 H2. unfold new_force, clip_flow. rewrite H1, H2. unfold elastic in El. rewrite El. reflexivity. Qed.

    Lemma elastic_nc s p : In p (grid c) -> comp c p = true ->
      any_nc K c (cg_half K c s) = false -> cg_set K c s p = false ->
      0 <= h_g (cg_half K c s) p.
    Proof.
      intros Hp Hc Hn Hs. pose proof (no_nc _ Hn p Hp) as H.
      unfold nc_set in H. rewrite Hc in H. simpl in H.
      apply orb_false_iff in H. destruct H as [H _].
      assert (mask_tensile K (cg_half K c s) p = true).
      { unfold mask_tensile. apply leb_true. rewrite cg_inactive by auto.
        rewrite elastic_cg_set in Hs by auto. apply Rltb_false in Hs. exact Hs. }
      rewrite H0 in H. simpl in H. apply Rltb_false in H. auto.
    Qed.

    Lemma conv_gap s fu : iter K c s = Ok fu -> fu_conv fu = true ->
      s_str (fu_state fu) = Cg ->
      forall p, In p (grid c) -> on_surface c p ->
        - c_pentol c < s_u (fu_state fu) p - c_h c p - s_off (fu_state fu).
    Proof.
      intros Hi Hc Hs p Hp Hon. apply comp_spec in Hon.
      apply iter_inv in Hi.
      destruct Hi as (h&mp&Hf&_&_&Ef&Eu&_&Eo&Es&_&_&_&_&_&_&H2).
      rewrite Hs in Es. symmetry in Es. apply new_str_cg in Es. destruct Es as [Hm Hn].
      apply elastic_first in Hf; auto. subst h.
      destruct (conv_inv _ _ _ H2 Hc) as (mp'&_&_&_&Hdu&Hpk&_).
      rewrite Eu, Eo. destruct (Hpk Hm) as [_ [_ Hpen]].
      destruct (cg_set K c s p) eqn:Ecg.
      - specialize (Hpen p Hp Hon Ecg). lra.
      - pose proof (elastic_nc s p Hp Hon Hn Ecg) as Hg. rewrite cg_half_g in Hg.
        specialize (Hdu p Hp). apply Rabs_def2 in Hdu. lra.
    Qed.

    Lemma conv_force_nonneg s fu : iter K c s = Ok fu -> s_str (fu_state fu) = Cg ->
      (forall Fx, c_ext c = Some Fx -> 0 <= Fx) ->
      forall p, s_f (fu_state fu) p <= 0.
    Proof.
      intros Hi Hs HF p. apply iter_inv in Hi.
      destruct Hi as (h&mp&Hf&_&_&Ef&_&_&_&Es&_).
      rewrite Hs in Es. symmetry in Es. apply new_str_cg in Es. destruct Es as [Hm Hn].
      rewrite Ef, elastic_new_force by auto. apply adjust_nonpos; auto.
      apply clip_tensile_nonpos.
    Qed.

    (** Points outside the returned active set. *)
    Lemma conv_inactive s fu : iter K c s = Ok fu -> s_str (fu_state fu) = Cg ->
      forall p, h_c (fu_half fu) p = false ->
        s_f (fu_state fu) p = 0 \/
        (exists Fx, c_ext c = Some Fx /\
           forall q, comp c q = true -> s_f (fu_state fu) q = - Fx / INR (c_nsurf c)).
    Proof.
      intros Hi Hs p Hc. apply iter_inv in Hi.
      destruct Hi as (h&mp&Hf&_&Eh&Ef&_&_&_&Es&_).
      rewrite Hs in Es. symmetry in Es. apply new_str_cg in Es. destruct Es as [Hm Hn].
      rewrite Ef, elastic_new_force by auto.
      apply elastic_first in Hf; auto. subst h. rewrite Eh in Hc.
      assert (Hcl : clip_tensile K (cg_half K c s) p = 0).
      { destruct (clip_tensile_cases (cg_half K c s) p) as [[H ?]|[? ?]]; auto.
        change (cg_set K c s p = false) in Hc.
        rewrite cg_inactive in H by auto. rewrite elastic_cg_set in Hc by auto.
        apply Rltb_false in Hc. lra. }
      rewrite adjust_force_unfold. destruct (c_ext c) as [Fx|]; auto.
      destruct (Reqb _ 0).
      - right. exists Fx. split; auto. intros q ->. auto.
      - left. rewrite Hcl. lra.
    Qed.

    (** G controls the gap on the active set. *)
    Lemma G_bound s p : In p (grid c) -> comp c p = true -> cg_set K c s p = true ->
      h_g (cg_half K c s) p * h_g (cg_half K c s) p <=
      rsum K (c_ranks c) (fun p => bmul K (comp c p)
        (bmul K (cg_set K c s p) (h_g (cg_half K c s) p * h_g (cg_half K c s) p))).
    Proof.
      intros Hp Hc Hs. rewrite rsum_lsum.
      set (phi := fun p => bmul K (comp c p) (bmul K (cg_set K c s p)
                    (h_g (cg_half K c s) p * h_g (cg_half K c s) p))).
      assert (E : phi p = h_g (cg_half K c s) p * h_g (cg_half K c s) p)
        by (unfold phi; rewrite Hc, Hs; reflexivity).
      rewrite <- E. apply lsum_nonneg_ge; auto. intros q _. unfold phi, bmul.
      destruct (comp c q), (cg_set K c s q); simpl; try lra. apply Rle_0_sqr.
    Qed.

    Lemma sqr_lt_bound g k t : 0 < t -> 0 < k -> g * g < k * (t * t) -> Rabs g < sqrt k * t.
    Proof.
      intros Ht Hk H.
      assert (0 < sqrt k) by (apply sqrt_lt_R0; auto).
      assert (sqrt k * sqrt k = k) by (apply sqrt_sqrt; lra).
      assert (0 < sqrt k * t) by (apply Rmult_lt_0_compat; auto).
      assert (E : k * (t * t) = (sqrt k * t) * (sqrt k * t)) by (rewrite <- H1 at 1; ring).
      rewrite E in H. clear E. set (a := sqrt k * t) in *.
      apply Rabs_def1; apply Rnot_le_lt; intros Hn.
      - assert (a * a <= g * g) by (apply Rmult_le_compat; lra). lra.
      - assert (a * a <= (-g) * (-g)) by (apply Rmult_le_compat; lra). lra.
    Qed.

    (** On the active set the gap is small in both directions, provided the
        last step really moved ([tau <> 0]) or it was the first one. *)
    Lemma conv_active s fu : iter K c s = Ok fu -> fu_conv fu = true ->
      s_str (fu_state fu) <> Mix ->
      s_tau (fu_state fu) <> 0 \/
      (s_delta s = false /\ compliant (grid c) (c_disp c) /\
       (forall p, comp c p = false -> s_t s p = 0)) ->
      forall p, In p (grid c) -> on_surface c p -> h_c (fu_half fu) p = true ->
        Rabs (s_u (fu_state fu) p - c_h c p - s_off (fu_state fu))
          < c_pentol c * (1 + sqrt (INR (length (filter (h_c (fu_half fu)) (grid c))))).
    Proof.
      intros Hi Hc Hs Ht p Hp Hon Hcr. apply comp_spec in Hon.
      apply iter_inv in Hi.
      destruct Hi as (h&mp&Hf&_&Eh&Ef&Eu&_&Eo&Es&Etau&_&_&_&_&_&H2).
      apply elastic_first in Hf; auto. subst h. rewrite Eh in *.
      pose proof (cg_half_str c s) as Hm.
      destruct (conv_inv _ _ _ H2 Hc) as (mp'&_&_&_&Hdu&Hpk&_).
      destruct (Hpk Hm) as [Hpos [HG _]].
      change (cg_set K c s p = true) in Hcr.
      assert (Hcount : Nat.ltb O (rcount (c_ranks c) (cg_set K c s)) = true).
      { apply rcount_pos. exists p. auto. }
      change (h_Acg (cg_half K c s)) with (rcount (c_ranks c) (cg_set K c s)) in HG.
      rewrite Hcount in HG.
      set (n := rcount (c_ranks c) (cg_set K c s)) in *.
      assert (Hn : 0 < INR n) by (apply lt_0_INR; apply Nat.ltb_lt; auto).
      assert (Hg : h_g (cg_half K c s) p * h_g (cg_half K c s) p < INR n * (c_pentol c * c_pentol c)).
      { destruct (Rltb 0 (cg_x c s)) eqn:Ex.
        - rewrite cg_half_G in HG. fold n in HG. rewrite Hcount, Ex in HG. cbv zeta in HG.
          pose proof (G_bound s p Hp Hon Hcr) as HB.
          set (G := rsum K _ _) in *.
          assert (G < INR n * (c_pentol c * c_pentol c)).
          { apply Rmult_lt_reg_r with (/ INR n). apply Rinv_0_lt_compat; auto.
            field_simplify; [|lra|lra]. unfold Rdiv in HG. field_simplify in HG; lra. }
          lra.
        - destruct Ht as [Ht|[Hd [Hcomp Hpad]]].
          + exfalso. apply Ht. rewrite Etau, cg_half_tau. fold n. now rewrite Hcount, Ex.
          + assert (Hz : h_g (cg_half K c s) p = 0).
            { destruct (Req_EM_T (h_t (cg_half K c s) p) 0) as [E0|E0].
              - rewrite cg_half_t, Hon, Hcr, Hd in E0. exact E0.
              - exfalso. apply Rltb_false in Ex.
                specialize (Hcomp (h_t (cg_half K c s))).
                assert (0 < - lsum (grid c) (fun p0 => h_t (cg_half K c s) p0 *
                           c_disp c (h_t (cg_half K c s)) p0)) by (apply Hcomp; eauto).
                unfold cg_x in Ex. rewrite rsum_lsum in Ex.
                assert (lsum (grid c) (fun p0 => h_t (cg_half K c s) p0 *
                           c_disp c (h_t (cg_half K c s)) p0) =
                  lsum (concat (c_ranks c)) (fun p0 => bmul K (cg_set K c s p0)
                   (c_disp c (h_t (cg_half K c s)) p0 * h_t (cg_half K c s) p0))).
                { apply lsum_ext. intros q _. unfold bmul at 1.
                  destruct (cg_set K c s q) eqn:Eq; [ring|].
                  assert (h_t (cg_half K c s) q = 0).
                  { rewrite cg_half_t. destruct (comp c q) eqn:Ecq; auto. rewrite Eq. reflexivity. }
                  rewrite H0. simpl. ring. }
                lra. }
            rewrite Hz. rewrite Rmult_0_l. repeat apply Rmult_lt_0_compat; auto. }
      apply sqr_lt_bound in Hg; auto.
      specialize (Hdu p Hp). rewrite Eu, Eo. rewrite cg_half_g in Hg.
      change (h_c (cg_half K c s)) with (cg_set K c s). unfold grid. rewrite <- rcount_length. fold n.
      replace (c_disp c (new_force K c (cg_half K c s)) p - c_h c p - h_off (cg_half K c s))
        with ((c_disp c (new_force K c (cg_half K c s)) p - s_u s p)
              + (s_u s p - c_h c p - h_off (cg_half K c s))) by ring.
      eapply Rle_lt_trans; [apply Rabs_triang|]. nra.
    Qed.
  End Elastic.
End Conv.
