From Coq Require Import Reals Lra List Bool Arith Lia Permutation FunctionalExtensionality.
From Verif Require Import CCG_Model CCG_Real CCG_Spec.
Import ListNotations.
Local Open Scope R_scope.

Section Inv.
  Context {P : Type}.
  Notation K := (ROps P).
  Variable c : @cfg R P.

  (** ** Loop principle *)
  Section Loop.
    Variable I : @state R P -> Prop.
    Hypothesis Istep : forall s fu, I s -> iter K c s = Ok fu -> I (fu_state fu).

    Definition last_ok (last : option (@full R P)) (s : @state R P) : Prop :=
      match last with
      | None => True
      | Some fu => fu_state fu = s /\ exists s0, I s0 /\ iter K c s0 = Ok fu
      end.

    Lemma loop_exit n : forall fuel s last r,
      I s -> last_ok last s ->
      snd (loop K c n fuel s last) = Ok r ->
      exists s0 fu, I s0 /\ iter K c s0 = Ok fu /\
        ((fu_conv fu = true /\ r = converged_result K c fu) \/
         (r = failed_result K c n fu)).
    Proof.
      induction fuel; intros s last r HI HL H; simpl in H.
      - destruct last as [fu|]; simpl in H; [|discriminate].
        injection H as <-. destruct HL as [_ [s0 [H1 H2]]]. exists s0, fu. auto.
      - destruct (iter K c s) as [fu|e] eqn:E; [|discriminate].
        destruct (fu_conv fu) eqn:Ec.
        + simpl in H. injection H as <-. exists s, fu. auto.
        + specialize (IHfuel (fu_state fu) (Some fu) r).
          destruct (loop K c n fuel (fu_state fu) (Some fu)) as [evs r0]; simpl in *.
          apply IHfuel; auto. eapply Istep; eauto.
          split; auto. exists s; auto.
    Qed.

    Lemma run_exit n r : I (init_state K c) -> ccg c n = Ok r ->
      exists s0 fu, I s0 /\ iter K c s0 = Ok fu /\
        ((fu_conv fu = true /\ r = converged_result K c fu) \/
         (r = failed_result K c n fu)).
    Proof.
      intros H0 H. unfold ccg, run, run_trace in H. eapply loop_exit; eauto. exact Logic.I.
    Qed.
  End Loop.

  Lemma iter_inv s fu : iter K c s = Ok fu ->
    exists h mp, first_half K c s = Ok h /\ max_pres K c h = Ok mp /\
      fu_half fu = h /\ s_f (fu_state fu) = new_force K c h /\
      s_u (fu_state fu) = c_disp c (new_force K c h) /\
      s_t (fu_state fu) = h_t h /\ s_off (fu_state fu) = h_off h /\
      s_str (fu_state fu) = new_str K c h /\
      s_tau (fu_state fu) = h_tau h /\ s_nit (fu_state fu) = S (s_nit s) /\
      s_nfev (fu_state fu) = S (h_nfev h) /\ s_mixsteps (fu_state fu) = h_mixsteps h /\
      s_delta (fu_state fu) = new_delta K c h /\ s_mixfac (fu_state fu) = h_mixfac h /\
      second_half K c s h = Ok fu.
  Proof.
    unfold iter. destruct (first_half K c s) as [h|] eqn:E; [|discriminate].
    intros H. pose proof H as H'. unfold second_half in H.
    destruct (max_pres K c h) as [mp|] eqn:Emp; [|discriminate].
    injection H as <-. exists h, mp. simpl. repeat split; auto.
  Qed.

  Lemma first_half_cases s h : first_half K c s = Ok h ->
    (h = cg_half K c s) \/
    (exists hd, c_hard c = Some hd /\ do_cg K c s = false /\ mix_half K c hd s = Ok h).
  Proof.
    unfold first_half. destruct (c_hard c) as [hd|].
    - destruct (do_cg K c s) eqn:E.
      + intros H; injection H; auto.
      + intros H. right. exists hd. auto.
    - intros H; injection H; auto.
  Qed.

  (** ** Fields of the two kinds of steps *)
  Lemma cg_half_f s p : h_f (cg_half K c s) p =
    s_f s p + bmul K (cg_set K c s p) (h_tau (cg_half K c s) * h_t (cg_half K c s) p).
  Proof. reflexivity. Qed.
  Lemma cg_half_g s p : h_g (cg_half K c s) p = s_u s p - c_h c p - h_off (cg_half K c s).
  Proof. reflexivity. Qed.
  Lemma cg_half_t s p : h_t (cg_half K c s) p =
    if comp c p then bmul K (cg_set K c s p)
      (if s_delta s && Rltb 0 (s_Gold s)
       then h_g (cg_half K c s) p + rsum K (c_ranks c) (fun p => bmul K (comp c p)
               (bmul K (cg_set K c s p) (h_g (cg_half K c s) p * h_g (cg_half K c s) p))) / s_Gold s * s_t s p
       else h_g (cg_half K c s) p)
    else s_t s p.
  Proof. reflexivity. Qed.
  Definition cg_x s : R := - rsum K (c_ranks c) (fun p => bmul K (cg_set K c s p)
     (c_disp c (h_t (cg_half K c s)) p * h_t (cg_half K c s) p)).
  Lemma cg_half_tau s : h_tau (cg_half K c s) =
    if Nat.ltb O (rcount (c_ranks c) (cg_set K c s)) then
      if Rltb 0 (cg_x s) then
        rsum K (c_ranks c) (fun p => bmul K (comp c p)
          (bmul K (cg_set K c s p) (h_g (cg_half K c s) p * h_t (cg_half K c s) p))) / cg_x s
      else 0 else 0.
  Proof. reflexivity. Qed.
  Lemma cg_half_G s : h_G (cg_half K c s) =
    let G := rsum K (c_ranks c) (fun p => bmul K (comp c p)
          (bmul K (cg_set K c s p) (h_g (cg_half K c s) p * h_g (cg_half K c s) p))) in
    if Nat.ltb O (rcount (c_ranks c) (cg_set K c s)) then
      if Rltb 0 (cg_x s) then G else 0 else G.
  Proof. reflexivity. Qed.
  Lemma cg_half_off s : h_off (cg_half K c s) =
    match c_ext c with
    | None => s_off s
    | Some _ => if Nat.ltb O (rcount (c_ranks c) (cg_set K c s))
                then rsum K (c_ranks c) (fun p => bmul K (comp c p && cg_set K c s p)
                       (s_u s p - c_h c p)) / INR (rcount (c_ranks c) (cg_set K c s))
                else 0
    end.
  Proof. reflexivity. Qed.
  Lemma cg_half_str s : is_mix (h_str (cg_half K c s)) = false.
  Proof. unfold cg_half; simpl. destruct (s_str s); reflexivity. Qed.

  Lemma mix_half_inv hd s h : mix_half K c hd s = Ok h ->
    h_str h = Mix /\ h_t h = s_t s /\ h_tau h = s_tau s /\ h_G h = 0 /\
    h_mixfac h = s_mixfac s * c_mixdec c /\ h_nfev h = s_nfev s /\
    h_mixsteps h = Nat.pred (if is_mix (s_str s) then s_mixsteps s else c_minmix c) /\
    (c_ext c = None -> h_off h = s_off s) /\
    (forall p, h_g h p = s_u s p - c_h c p - h_off h) /\
    (forall p, h_c h p = if comp c p then Rltb (h_g h p) 0 else cg_set K c s p) /\
    (forall p, h_f h p = (1 - s_mixfac s) * s_f s p - s_mixfac s * bmul K (h_c h p) (hval hd p)).
  Proof.
    unfold mix_half.
    destruct (c_ext c) as [Fx|].
    - match goal with |- match ?m with _ => _ end = _ -> _ => destruct m as [off|]; [|discriminate] end.
      intros H; injection H as <-. repeat split; auto. intros; discriminate.
    - intros H; injection H as <-. repeat split; auto.
  Qed.

  (** ** Offset invariant *)
  Lemma first_half_off s h : c_ext c = None -> first_half K c s = Ok h -> h_off h = s_off s.
  Proof.
    intros He H. apply first_half_cases in H. destruct H as [->|[hd [Hh [_ H]]]].
    - unfold cg_half. rewrite He. reflexivity.
    - unfold mix_half in H. rewrite He in H. injection H as <-. reflexivity.
  Qed.

  Lemma offset_kept n r : offset_control c -> ccg c n = Ok r -> x_offset r = c_offset c.
  Proof.
    intros He H. apply (run_exit (fun s => s_off s = c_offset c)) in H; [| |reflexivity].
    - destruct H as [s [fu [Hs [Hi Hr]]]].
      apply iter_inv in Hi. destruct Hi as [h [mp [Hf [_ [_ [_ [_ [_ [Ho _]]]]]]]]].
      assert (s_off (fu_state fu) = c_offset c) by (rewrite Ho, <- Hs; apply first_half_off; auto).
      destruct Hr as [[_ ->]| ->]; simpl; auto.
    - intros s fu Hs Hi. apply iter_inv in Hi. destruct Hi as [h [mp [Hf [_ [_ [_ [_ [_ [Ho _]]]]]]]]].
      rewrite Ho, <- Hs. apply first_half_off; auto.
  Qed.

  (** ** Padding invariant *)
  Definition off_surface (p : P) : Prop := comp c p = false.

  Lemma comp_spec p : comp c p = true <-> on_surface c p.
  Proof. unfold comp, on_surface. rewrite andb_true_iff, negb_true_iff. tauto. Qed.
  Lemma comp_false p : comp c p = false <-> ~ on_surface c p.
  Proof. rewrite <- comp_spec. destruct (comp c p); split; intros; try tauto; congruence. Qed.

  Definition pad_inv (s : @state R P) : Prop :=
    forall p, comp c p = false -> s_f s p = 0 /\ s_t s p = 0.

  Lemma hval_nonneg hd p : hardness_nonneg c -> c_hard c = Some hd -> 0 <= hval hd p.
  Proof.
    unfold hardness_nonneg. intros H E. rewrite E in H. destruct hd; simpl; auto.
  Qed.

  Lemma pad_first s h : pad_inv s -> first_half K c s = Ok h ->
    forall p, comp c p = false -> h_f h p = 0 /\ h_t h p = 0.
  Proof.
    intros Hi H p Hp. destruct (Hi p Hp) as [Hf Ht].
    assert (Hcg : cg_set K c s p = false).
    { unfold cg_set. rewrite Hf. simpl.
      assert (E : Rltb 0 0 = false) by (apply Rltb_false; lra).
      destruct (c_hard c); rewrite E; auto. }
    apply first_half_cases in H. destruct H as [->|[hd [Hh [_ H]]]].
    - rewrite cg_half_f, cg_half_t, Hcg, Hp, Hf. unfold bmul. simpl. split; [lra|auto].
    - apply mix_half_inv in H. destruct H as (_&Et&_&_&_&_&_&_&_&Ec&Ef).
      rewrite Ef, Ec, Et, Hp, Hcg, Hf. unfold bmul. simpl. split; [lra|auto].
  Qed.

  Lemma pad_new_force h : hardness_nonneg c ->
    (forall p, comp c p = false -> h_f h p = 0) ->
    forall p, comp c p = false -> new_force K c h p = 0.
  Proof.
    intros Hh H p Hp.
    assert (T : clip_tensile K h p = 0).
    { unfold clip_tensile. simpl. rewrite (H p Hp). now destruct (mask_tensile K h p). }
    assert (A : adjust_force K c (clip_tensile K h) p = 0).
    { revert T. generalize (clip_tensile K h). intros f T.
      unfold adjust_force. destruct (c_ext c); auto. simpl.
      unfold pad. destruct (Reqb _ _); simpl; [now rewrite Hp|]. rewrite T; lra. }
    assert (B : clip_flow K c h (adjust_force K c (clip_tensile K h)) p = 0).
    { unfold clip_flow. destruct (c_hard c) as [hd|] eqn:Eh; auto. simpl.
      destruct (mask_flowing K c h p) eqn:Em; auto.
      unfold mask_flowing in Em. rewrite Eh in Em. apply leb_true in Em. simpl in Em.
      rewrite (H p Hp) in Em. pose proof (hval_nonneg hd p Hh Eh). lra. }
    unfold new_force. destruct (is_mix (h_str h)); auto.
    destruct (any_nc K c h); auto. simpl. now rewrite Hp.
  Qed.

  Lemma pad_inv_init : pad_inv (init_state K c).
  Proof. intros p Hp. unfold init_state; simpl. unfold pad. rewrite Hp; simpl; auto. Qed.

  Lemma pad_inv_step : hardness_nonneg c ->
    forall s fu, pad_inv s -> iter K c s = Ok fu -> pad_inv (fu_state fu).
  Proof.
    intros Hh s fu Hi H. apply iter_inv in H.
    destruct H as [h [mp [Hf [_ [_ [Ef [_ [Et _]]]]]]]].
    intros p Hp. rewrite Ef, Et. split.
    - apply pad_new_force; auto. intros q Hq. eapply pad_first; eauto.
    - eapply pad_first; eauto.
  Qed.

  (** ** C01, C02 *)
  Lemma result_consistent n r : hardness_nonneg c -> ccg c n = Ok r ->
    (forall p, ~ on_surface c p -> x_jac r p = 0) /\
    x_x r = c_disp c (fun p => if c_slice c p then - x_jac r p else 0) /\
    x_fun r = / 2 * lsum (filter (c_slice c) (grid c)) (fun p => x_jac r p * x_x r p).
  Proof.
    intros Hh H. apply (run_exit pad_inv (pad_inv_step Hh)) in H; [|apply pad_inv_init].
    destruct H as [s [fu [Hs [Hi Hr]]]].
    pose proof (pad_inv_step Hh s fu Hs Hi) as Hs'.
    apply iter_inv in Hi. destruct Hi as [h [mp [Hf [_ [_ [Ef [Eu _]]]]]]].
    assert (Hu : s_u (fu_state fu) = c_disp c (fun p => if c_slice c p then - - s_f (fu_state fu) p else 0)).
    { rewrite Eu, Ef. f_equal. apply functional_extensionality. intros p.
      rewrite <- Ef. destruct (c_slice c p) eqn:E; [lra|].
      apply (Hs' p). unfold comp. rewrite E. reflexivity. }
    assert (Hj : forall p, ~ on_surface c p -> - s_f (fu_state fu) p = 0).
    { intros p Hp. apply comp_false in Hp. destruct (Hs' p Hp) as [-> _]. lra. }
    assert (He : energy K c (fu_state fu) = / 2 * lsum (filter (c_slice c) (grid c))
        (fun p => - s_f (fu_state fu) p * s_u (fu_state fu) p)).
    { unfold energy. rewrite rsum_lsum. simpl. unfold grid.
      assert (G : forall l, lsum (filter (c_slice c) l)
         (fun p => - s_f (fu_state fu) p * s_u (fu_state fu) p) =
         - lsum l (fun p => bmul K (c_slice c p) (s_f (fu_state fu) p * s_u (fu_state fu) p))).
      { induction l as [|q l IH]; simpl. unfold lsum; simpl; lra.
        unfold lsum in *. simpl. unfold bmul at 1. destruct (c_slice c q); simpl; rewrite IH; lra. }
      rewrite G. lra. }
    destruct Hr as [[_ ->]| ->]; simpl; auto.
  Qed.

  (** ** Counters *)
  Lemma loop_counters n : forall fuel s last r,
    (match last with None => s_nit s = O | Some fu => fu_state fu = s /\ s_nit s <> O end) ->
    (s_nit s + fuel = n)%nat ->
    snd (loop K c n fuel s last) = Ok r ->
    (1 <= x_nit r <= n)%nat /\
    (x_success r = true /\ x_message r = PolonskyConverged \/
     x_success r = false /\ x_message r = ReachedMaxiter n /\ x_nit r = n).
  Proof.
    induction fuel; intros s last r HL Hn H; simpl in H.
    - destruct last as [fu|]; simpl in H; [|discriminate].
      injection H as <-. destruct HL as [E1 E2]. simpl. rewrite E1. split; [lia|].
      right. repeat split; auto. lia.
    - destruct (iter K c s) as [fu|e] eqn:E; [|discriminate].
      apply iter_inv in E.
      assert (Hnit : s_nit (fu_state fu) = S (s_nit s)) by (destruct E as [? [? E]]; tauto).
      destruct (fu_conv fu) eqn:Ec.
      + simpl in H. injection H as <-. simpl. rewrite Hnit. split; [lia|auto].
      + specialize (IHfuel (fu_state fu) (Some fu) r).
        destruct (loop K c n fuel (fu_state fu) (Some fu)) as [evs r0]; simpl in *.
        apply IHfuel; auto. split; auto. rewrite Hnit; discriminate. lia.
  Qed.
End Inv.
