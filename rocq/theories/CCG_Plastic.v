(** What a converged calculation with a hardness guarantees. *)
From Coq Require Import Reals Lra List Bool Arith Lia FunctionalExtensionality.
From Verif Require Import CCG_Model CCG_Real CCG_Spec CCG_Proofs CCG_Conv CCG_Results CCG_Results2.
Import ListNotations.
Local Open Scope R_scope.

Section Plastic.
  Context {P : Type}.
  Local Notation K := (ROps P).
  Variable c : @cfg R P.

  Lemma half_g s h : first_half K c s = Ok h -> forall p, h_g h p = s_u s p - c_h c p - h_off h.
  Proof.
    intros Hf. apply first_half_cases in Hf. destruct Hf as [->|(hd & _ & _ & H)]; [reflexivity|].
    unfold mix_half in H. destruct (match c_ext c with None => _ | Some _ => _ end) as [off|]; [|discriminate].
    injection H as <-. reflexivity.
  Qed.
  Lemma half_cg s h : first_half K c s = Ok h -> is_mix (h_str h) = false -> h = cg_half K c s.
  Proof.
    intros Hf Hm. apply first_half_cases in Hf. destruct Hf as [->|(hd & _ & _ & H)]; [reflexivity|].
    apply mix_half_inv in H. destruct H as [H _]. rewrite H in Hm. discriminate.
  Qed.

  (** Any status: the flow mask separates points that lie deeper than [pentol]
      from points further apart than [pentol]. *)
  Lemma plastic_mask n r m : ccg c n = Ok r -> x_plastic r = Some m ->
    x_success r = true /\
    forall p, In p (grid c) -> on_surface c p ->
      (m p = true -> gap c r p < c_pentol c) /\ (m p = false -> - c_pentol c < gap c r p).
  Proof.
    intros H Hm. apply (run_exit c (fun _ => True)) in H; auto.
    destruct H as (s & fu & _ & Hi & [[Hc ->]| ->]); [|discriminate]. split; [reflexivity|].
    intros p Hp Hon. apply comp_spec in Hon. unfold converged_result in Hm. cbn [x_plastic] in Hm.
    apply iter_inv in Hi. destruct Hi as (h&mp&Hf&_&Eh&_&Eu&_&Eo&_&_&_&_&_&_&_&H2).
    destruct (conv_inv c _ _ _ H2 Hc) as (mp'&_&_&_&Hdu&_). specialize (Hdu p Hp). apply Rabs_def2 in Hdu.
    pose proof (half_g s h Hf p) as G. unfold gap. cbn [converged_result x_x x_offset]. rewrite Eu, Eo.
    destruct (c_hard c) as [hd|]; [|discriminate]. rewrite Eh in Hm.
    assert (E : m p = comp c p && Rltb (h_g h p) 0) by (injection Hm as <-; reflexivity).
    rewrite E, Hon. cbn [andb]. split; intros Q.
    - apply Rltb_true in Q. lra.
    - apply Rltb_false in Q. lra.
  Qed.

  Section Cg.
    Variable H : R.
    Hypothesis Eh : c_hard c = Some (HScalar H).
    Hypothesis PH : 0 < H.
    Hypothesis Ec : c_ext c = None.

    Lemma active_gap s fu : iter K c s = Ok fu -> fu_conv fu = true ->
      s_str (fu_state fu) <> Mix ->
      s_tau (fu_state fu) <> 0 \/
      (s_delta s = false /\ compliant (grid c) (c_disp c) /\
       (forall p, comp c p = false -> s_t s p = 0)) ->
      forall p, In p (grid c) -> on_surface c p -> h_c (fu_half fu) p = true ->
        Rabs (s_u (fu_state fu) p - c_h c p - s_off (fu_state fu))
          < c_pentol c * (1 + sqrt (INR (length (filter (h_c (fu_half fu)) (grid c))))).
    Proof.
      intros Hi Hc Hs Ht p Hp Hon Hcr. apply comp_spec in Hon.
      apply iter_inv in Hi.
      destruct Hi as (h&mp&Hf&_&Ehh&Ef&Eu&_&Eo&Es&Etau&_&_&_&_&_&H2).
      assert (Hm : is_mix (h_str h) = false).
      { destruct (is_mix (h_str h)) eqn:E; [|reflexivity]. exfalso. apply Hs. rewrite Es. unfold new_str. rewrite E. reflexivity. }
      apply half_cg in Hf; auto. subst h. rewrite Ehh in *.
      destruct (conv_inv c _ _ _ H2 Hc) as (mp'&_&_&_&Hdu&Hpk&_).
      destruct (Hpk Hm) as [Hpos [HG _]].
      change (cg_set K c s p = true) in Hcr.
      assert (Hcount : Nat.ltb O (rcount (c_ranks c) (cg_set K c s)) = true).
      { apply rcount_pos. exists p. auto. }
      change (h_Acg (cg_half K c s)) with (rcount (c_ranks c) (cg_set K c s)) in HG.
      rewrite Hcount in HG.
      set (n := rcount (c_ranks c) (cg_set K c s)) in *.
      assert (Hn : 0 < INR n) by (apply lt_0_INR; apply Nat.ltb_lt; auto).
      assert (Hg : h_g (cg_half K c s) p * h_g (cg_half K c s) p < INR n * (c_pentol c * c_pentol c)).
      { destruct (Rltb 0 (cg_x c s)) eqn:Ex.
        - rewrite cg_half_G in HG. fold n in HG. rewrite Hcount, Ex in HG. cbv zeta in HG.
          pose proof (G_bound c s p Hp Hon Hcr) as HB.
          set (G := rsum K _ _) in *.
          assert (G < INR n * (c_pentol c * c_pentol c)).
          { apply Rmult_lt_reg_r with (/ INR n). apply Rinv_0_lt_compat; auto.
            field_simplify; [|lra|lra]. unfold Rdiv in HG. field_simplify in HG; lra. }
          lra.
        - destruct Ht as [Ht|[Hd [Hcomp Hpad]]].
          + exfalso. apply Ht. rewrite Etau, cg_half_tau. fold n. now rewrite Hcount, Ex.
          + assert (Hz : h_g (cg_half K c s) p = 0).
            { destruct (Req_EM_T (h_t (cg_half K c s) p) 0) as [E0|E0].
              - rewrite cg_half_t, Hon, Hcr, Hd in E0. exact E0.
              - exfalso. apply Rltb_false in Ex.
                specialize (Hcomp (h_t (cg_half K c s))).
                assert (0 < - lsum (grid c) (fun p0 => h_t (cg_half K c s) p0 *
                           c_disp c (h_t (cg_half K c s)) p0)) by (apply Hcomp; eauto).
                unfold cg_x in Ex. rewrite rsum_lsum in Ex.
                assert (lsum (grid c) (fun p0 => h_t (cg_half K c s) p0 *
                           c_disp c (h_t (cg_half K c s)) p0) =
                  lsum (concat (c_ranks c)) (fun p0 => bmul K (cg_set K c s p0)
                   (c_disp c (h_t (cg_half K c s)) p0 * h_t (cg_half K c s) p0))).
                { apply lsum_ext. intros q _. unfold bmul at 1.
                  destruct (cg_set K c s q) eqn:Eq; [ring|].
                  assert (h_t (cg_half K c s) q = 0).
                  { rewrite cg_half_t. destruct (comp c q) eqn:Ecq; auto. rewrite Eq. reflexivity. }
                  rewrite H1. simpl. ring. }
                lra. }
            rewrite Hz. rewrite Rmult_0_l. repeat apply Rmult_lt_0_compat; auto. }
      apply sqr_lt_bound in Hg; auto.
      specialize (Hdu p Hp). rewrite Eu, Eo. rewrite cg_half_g in Hg.
      change (h_c (cg_half K c s)) with (cg_set K c s). unfold grid. rewrite <- rcount_length. fold n.
      replace (c_disp c (new_force K c (cg_half K c s)) p - c_h c p - h_off (cg_half K c s))
        with ((c_disp c (new_force K c (cg_half K c s)) p - s_u s p)
              + (s_u s p - c_h c p - h_off (cg_half K c s))) by ring.
      eapply Rle_lt_trans; [apply Rabs_triang|]. nra.
    Qed.

    (** Status [cg]: the contact conditions within the tolerance. *)
    Lemma plastic_conditions n r : ccg c n = Ok r -> x_success r = true -> x_str r = Cg ->
      x_tau r <> 0 \/ (x_nit r = 1%nat /\ compliant (grid c) (c_disp c)) ->
      forall p, In p (grid c) -> on_surface c p ->
        0 <= x_jac r p <= H
        /\ (x_jac r p < H -> - c_pentol c < gap c r p)
        /\ (0 < x_jac r p -> gap c r p < c_pentol c * (1 + sqrt (INR (n_active c r))))
        /\ (forall m, x_plastic r = Some m -> m p = true -> 0 < x_jac r p)
        /\ (forall m, x_plastic r = Some m -> m p = false -> 0 < x_jac r p ->
              Rabs (gap c r p) < c_pentol c * (1 + sqrt (INR (n_active c r)))).
    Proof.
      intros Hr Hs Hcg Ht p Hp Hon.
      split; [apply (plastic_bounds c n r H Eh (Rlt_le _ _ PH) Ec Hr); rewrite Hcg; discriminate|].
      apply (run_exit c (main_inv c)) in Hr; [|apply main_step; unfold hardness_nonneg; rewrite Eh; lra|apply main_init].
      destruct Hr as (s & fu & [Hpad Hd] & Hi & [[Hc ->]| ->]); [|discriminate].
      cbn [converged_result x_str x_tau x_nit] in Hcg, Ht.
      assert (HT : s_tau (fu_state fu) <> 0 \/ (s_delta s = false /\ compliant (grid c) (c_disp c) /\
         (forall p, comp c p = false -> s_t s p = 0))).
      { destruct Ht as [Ht|[Ht1 Ht2]]; [auto|]. right. pose proof Hi as Hi'.
        apply iter_inv in Hi'. destruct Hi' as (h&mp&_&_&_&_&_&_&_&_&_&En&_).
        assert (s_nit s = O) by congruence. split; auto. split; auto. intros q Hq. apply Hpad; auto. }
      pose proof (active_gap s fu Hi Hc ltac:(rewrite Hcg; discriminate) HT p Hp Hon) as AG. clear HT Ht.
      apply comp_spec in Hon. apply iter_inv in Hi.
      destruct Hi as (h&mp&Hf&_&Ehh&Ef&Eu&_&Eo&Es&_&_&_&_&_&_&H2).
      rewrite Hcg in Es. symmetry in Es. apply new_str_cg in Es. destruct Es as [Hm Hn].
      apply half_cg in Hf; auto. subst h.
      destruct (conv_inv c _ _ _ H2 Hc) as (mp'&_&_&_&Hdu&Hpk&_). specialize (Hdu p Hp). apply Rabs_def2 in Hdu.
      destruct (Hpk Hm) as [Hpos [_ Hpen]]. specialize (Hpen p Hp Hon).
      unfold n_active, gap. cbn [converged_result x_x x_jac x_offset x_active x_plastic]. rewrite Hcg, Eh. cbn [is_mix].
      rewrite Ehh in *. rewrite Eu, Eo in *. rewrite Ef.
      pose proof (no_nc c _ Hn p Hp) as NC. unfold nc_set in NC. rewrite Hon in NC. cbn [andb] in NC. apply orb_false_iff in NC.
      destruct NC as [NC1 NC2].
      pose proof (cg_half_g c s p) as G. set (hh := cg_half K c s) in *.
      set (eps := c_pentol c * (1 + sqrt _)) in *.
      assert (PE : c_pentol c <= eps).
      { unfold eps. rewrite Rmult_plus_distr_l, Rmult_1_r. assert (0 <= c_pentol c * sqrt (INR (length (filter (h_c hh) (grid c))))); [|lra].
        apply Rmult_le_pos; [lra|apply sqrt_pos]. }
      assert (NF : new_force K c hh p = if mask_flowing K c hh p then - H else clip_tensile K hh p).
      { unfold new_force, clip_flow, adjust_force. rewrite Hm, Hn, Ec, Eh. reflexivity. }
      rewrite NF. cbn [oopp ROps].
      assert (FL : mask_flowing K c hh p = true <-> h_f hh p <= - H).
      { unfold mask_flowing. rewrite Eh. apply leb_true. }
      assert (FL0 : mask_flowing K c hh p = true -> h_g hh p <= 0).
      { intros Q. rewrite Q in NC2. cbn [andb] in NC2. apply Rltb_false in NC2. exact NC2. }
      assert (TE0 : 0 <= h_f hh p -> 0 <= h_g hh p).
      { intros Q. assert (T : mask_tensile K hh p = true) by (unfold mask_tensile; apply leb_true; exact Q).
        rewrite T in NC1. cbn [andb] in NC1. apply Rltb_false in NC1. exact NC1. }
      assert (OUT : h_c hh p = false -> 0 <= h_f hh p \/ mask_flowing K c hh p = true).
      { intros Q. change (cg_set K c s p = false) in Q. pose proof (cg_inactive c s p Q) as F. fold hh in F.
        unfold cg_set in Q. rewrite Eh in Q. apply andb_false_iff in Q. destruct Q as [Q|Q]; apply Rltb_false in Q.
        - left. cbn [o0 ROps] in Q. lra.
        - right. apply FL. cbn [hval oopp ROps] in Q. lra. }
      assert (MF : mask_flowing K c hh p = false -> - H < h_f hh p).
      { intros Q. unfold mask_flowing in Q. rewrite Eh in Q. apply leb_false in Q. exact Q. }
      destruct (clip_tensile_cases hh p) as [[T1 T2]|[T1 T2]]; destruct (h_c hh p) eqn:CR; try specialize (AG eq_refl);
        try specialize (Hpen eq_refl); try specialize (OUT eq_refl);
        destruct (mask_flowing K c hh p) eqn:EF; try specialize (FL0 eq_refl); try specialize (MF eq_refl);
        try (assert (h_f hh p <= - H) by (apply FL; reflexivity)); try (destruct OUT as [OUT|OUT]; [exfalso; lra|discriminate]);
        (split; [intros Q|split; [intros Q|split; [intros mm Q1 Q2|intros mm Q1 Q2 Q3]]]);
        try rewrite T2 in *; try (specialize (TE0 T1)); try lra; try (apply Rabs_def2 in AG; lra); try exact AG;
        try (exfalso; assert (E : mm p = comp c p && Rltb (h_g hh p) 0) by (injection Q1 as <-; reflexivity); rewrite Q2, Hon in E;
             symmetry in E; cbn [andb] in E; apply Rltb_true in E; lra).
      all: assert (E : mm p = comp c p && Rltb (h_g hh p) 0) by (injection Q1 as <-; reflexivity); rewrite Q2, Hon in E;
             symmetry in E; cbn [andb] in E; apply Rltb_false in E; apply Rabs_def1; lra.
    Qed.
  End Cg.
End Plastic.
