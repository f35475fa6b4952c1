(** * Steps of the solver seen from outside, and runs that get stuck *)
From Coq Require Import Reals Lra List Bool Arith Lia FunctionalExtensionality.
From Verif Require Import CCG_Model CCG_Real CCG_Spec CCG_Proofs CCG_Conv CCG_Results CCG_Results2 CCG_Returns CCG_FiniteRun.
Import ListNotations.
Local Open Scope R_scope.

(** Specification: a step from the forces [f] along the direction [d] with step
    length [tau].  Only points under pressure move; what becomes tensile is set
    to zero, and penetrating points without pressure are pushed back by [tau]
    times the penetration. *)
Definition projected_step (tau : R) (f d g : R) : R :=
  let v := if Rlt_dec f 0 then f + tau * d else f in
  if Rlt_dec v 0 then v else if Rlt_dec g 0 then tau * g else 0.
(** The step from iterate [s] to [s'] is a steepest descent step: the direction
    is the gap (the gradient of the complementary energy). *)
Definition steepest_step {P} (c : @cfg R P) (s s' : @state R P) : Prop :=
  exists tau, forall p, on_surface c p ->
    s_f s' p = projected_step tau (s_f s p) (iterate_gap c s p) (iterate_gap c s p).

Section Steps.
  Context {P : Type}.
  Local Notation K := (ROps P).
  Variable c : @cfg R P.
  Hypothesis El : elastic c.
  Hypothesis He : offset_control c.

  Lemma step_force s fu p : covers c -> iter K c s = Ok fu -> on_surface c p -> s_off s = c_offset c ->
    s_f (fu_state fu) p = projected_step (h_tau (cg_half K c s)) (s_f s p) (h_t (cg_half K c s) p) (iterate_gap c s p).
  Proof.
    intros Cov Hi Hp Ho. apply comp_spec in Hp.
    apply iter_inv in Hi. destruct Hi as (h&mp&Hf&_&_&Hn&_). rewrite Hn.
    apply (elastic_first c s h El) in Hf. subst h.
    assert (G : h_g (cg_half K c s) p = iterate_gap c s p).
    { rewrite cg_half_g, cg_half_off. unfold offset_control in He. rewrite He, Ho. reflexivity. }
    unfold projected_step, new_force. rewrite cg_half_str.
    unfold clip_flow. pose proof El as El'. unfold elastic in El'. rewrite El'.
    rewrite adjust_force_unfold. unfold offset_control in He. rewrite He.
    set (v := if Rlt_dec (s_f s p) 0 then _ else _).
    assert (V : h_f (cg_half K c s) p = v).
    { unfold v. rewrite cg_half_f, (elastic_cg_set c s p El). unfold Rltb. destruct (Rlt_dec (s_f s p) 0); unfold bmul; cbn [ROps o0]; lra. }
    assert (N : nc_set K c (cg_half K c s) p = negb (Rltb v 0) && Rltb (iterate_gap c s p) 0).
    { unfold nc_set, mask_tensile, mask_flowing. rewrite Hp, El', V, G. cbn [andb]. rewrite orb_false_r. reflexivity. }
    assert (T : clip_tensile K (cg_half K c s) p = if Rlt_dec v 0 then v else 0).
    { destruct (clip_tensile_cases (cg_half K c s) p) as [[A ->]|[A ->]]; rewrite V in A; destruct (Rlt_dec v 0); lra. }
    destruct (any_nc K c (cg_half K c s)) eqn:An.
    - cbn [mat ROps oadd omul]. rewrite Hp, T, N, G. unfold Rltb, bmul.
      destruct (Rlt_dec v 0), (Rlt_dec (iterate_gap c s p) 0); cbn [negb andb o0 ROps]; lra.
    - pose proof (no_nc c _ An p (Cov p)) as Z. rewrite N in Z. rewrite T. unfold Rltb in Z.
      destruct (Rlt_dec v 0), (Rlt_dec (iterate_gap c s p) 0); cbn in Z; try discriminate; reflexivity.
  Qed.

  (** Only iterations with status "sd" extend the contact area. *)
  Lemma area_shrinks s fu p : iter K c s = Ok fu -> s_str (fu_state fu) = Cg ->
    s_f (fu_state fu) p < 0 -> s_f s p < 0.
  Proof.
    intros Hi Hs Hp. apply iter_inv in Hi. destruct Hi as (h&mp&Hf&_&_&Hn&_&_&_&Hst&_).
    apply (elastic_first c s h El) in Hf. subst h. rewrite Hn in Hp.
    assert (C0 : new_str K c (cg_half K c s) = Cg) by congruence.
    apply new_str_cg in C0. destruct C0 as [M A].
    rewrite (elastic_new_force c El) in Hp by auto. rewrite adjust_force_unfold in Hp. unfold offset_control in He. rewrite He in Hp.
    destruct (Rlt_or_le (s_f s p) 0) as [L|L]; [exact L|exfalso].
    destruct (clip_tensile_cases (cg_half K c s) p) as [[B E]|[B E]]; rewrite E in Hp; [|lra].
    rewrite cg_inactive in B; [lra|]. rewrite elastic_cg_set by auto. apply Rltb_false. exact L.
  Qed.

  Lemma fresh_step k s s' : covers c -> after c k = Ok s -> after c (S k) = Ok s' -> s_str s <> Cg -> steepest_step c s s'.
  Proof.
    intros Cov Ha Hb Hs. destruct (after_start c El He k s Ha) as (_&Ho&Hd). specialize (Hd Hs).
    cbn [after] in Hb. rewrite Ha in Hb. destruct (iter K c s) as [fu|] eqn:Hi; [|discriminate]. injection Hb as <-.
    exists (h_tau (cg_half K c s)). intros p Hp. rewrite (step_force s fu p Cov Hi Hp Ho).
    unfold projected_step. destruct (Rlt_dec (s_f s p) 0) as [L|L]; [|reflexivity].
    assert (T : h_t (cg_half K c s) p = iterate_gap c s p).
    { rewrite cg_half_t. apply comp_spec in Hp. rewrite Hp, Hd, (elastic_cg_set c s p El).
      apply Rltb_true in L. rewrite L. unfold bmul. cbn [andb]. rewrite cg_half_g, cg_half_off.
      unfold offset_control in He. rewrite He, Ho. reflexivity. }
    rewrite T. reflexivity.
  Qed.

  Lemma joined k s s' s'' : covers c -> after c k = Ok s -> after c (S k) = Ok s' -> after c (S (S k)) = Ok s'' ->
    (exists p, s_f s' p < 0 /\ ~ s_f s p < 0) -> steepest_step c s' s''.
  Proof.
    intros Cov Ha Hb Hc (p&P1&P2). apply (fresh_step (S k) s' s'' Cov Hb Hc). intros E. apply P2.
    cbn [after] in Hb. rewrite Ha in Hb. destruct (iter K c s) as [fu|] eqn:Hi; [|discriminate]. injection Hb as <-.
    exact (area_shrinks s fu p Hi E P1).
  Qed.

  (** ** Dead ends *)
  Lemma zero_step s fu : iter K c s = Ok fu -> (forall p, s_f s p = 0) -> forall p, s_f (fu_state fu) p = 0.
  Proof.
    intros Hi Z p. apply iter_inv in Hi. destruct Hi as (h&mp&Hf&_&_&Hn&_). rewrite Hn.
    apply (elastic_first c s h El) in Hf. subst h.
    assert (CS : forall q, cg_set K c s q = false).
    { intros q. rewrite elastic_cg_set by auto. apply Rltb_false. rewrite Z. lra. }
    assert (TA : h_tau (cg_half K c s) = 0).
    { rewrite cg_half_tau. replace (rcount (c_ranks c) (cg_set K c s)) with 0%nat; [reflexivity|].
      symmetry. destruct (rcount (c_ranks c) (cg_set K c s)) eqn:E; [reflexivity|].
      exfalso. assert (X : Nat.ltb 0 (rcount (c_ranks c) (cg_set K c s)) = false).
      { apply rcount_zero. intros; apply CS. }
      rewrite E in X. discriminate. }
    assert (T : forall q, clip_tensile K (cg_half K c s) q = 0).
    { intros q. destruct (clip_tensile_cases (cg_half K c s) q) as [[A ->]|[A ->]]; [|reflexivity].
      rewrite cg_inactive in A by apply CS. rewrite Z in A. lra. }
    unfold new_force. rewrite cg_half_str. unfold clip_flow. pose proof El as El'. unfold elastic in El'. rewrite El'.
    rewrite adjust_force_unfold. unfold offset_control in He. rewrite He.
    destruct (any_nc K c (cg_half K c s)); [|apply T].
    cbn [mat ROps oadd omul]. rewrite T, TA. destruct (comp c p); lra.
  Qed.
  Lemma zero_stays k s : after c k = Ok s -> (forall p, s_f s p = 0) ->
    forall j, exists s', after c (j + k) = Ok s' /\ forall p, s_f s' p = 0.
  Proof.
    intros Ha Z. induction j as [|j (s'&H1&H2)]; [eauto|].
    destruct (iter_returns c s' (or_introl El)) as [fu Hi]. exists (fu_state fu).
    split; [cbn [Nat.add after]; rewrite H1, Hi; reflexivity|]. apply (zero_step s' fu Hi H2).
  Qed.

  (** A call without convergence returns its last iterate. *)
  Lemma loop_fails n fuel : forall s last,
    (forall j sj fu, (j < fuel)%nat -> iterates c j s = Ok sj -> iter K c sj = Ok fu -> fu_conv fu = false) ->
    (fuel = O -> exists fu0, last = Some fu0 /\ fu_state fu0 = s) ->
    exists r sn, snd (loop K c n fuel s last) = Ok r /\ iterates c fuel s = Ok sn /\ x_success r = false /\
      x_message r = ReachedMaxiter n /\ x_jac r = (fun p => - s_f sn p) /\ x_x r = s_u sn /\ x_nit r = s_nit sn.
  Proof.
    induction fuel as [|fuel IH]; intros s last Nc L; cbn [loop iterates].
    - destruct (L eq_refl) as (fu0&->&<-). do 2 eexists. split; [reflexivity|]. repeat split; reflexivity.
    - destruct (iter_returns c s (or_introl El)) as [fu Hi]. rewrite Hi.
      rewrite (Nc 0%nat s fu (Nat.lt_0_succ _) eq_refl Hi).
      destruct (IH (fu_state fu) (Some fu)) as (r&sn&H1&H2).
      + intros j sj fu' Hj Hit. apply (Nc (S j) sj fu'); [lia|]. cbn [iterates]. rewrite Hi. exact Hit.
      + eauto.
      + exists r, sn. destruct (loop K c n fuel (fu_state fu) (Some fu)) as [evs o]. auto.
  Qed.
  Lemma fails n : (1 <= n)%nat ->
    (forall j s fu, (j < n)%nat -> after c j = Ok s -> iter K c s = Ok fu -> fu_conv fu = false) ->
    exists r s, ccg c n = Ok r /\ after c n = Ok s /\ x_success r = false /\ x_message r = ReachedMaxiter n /\
      x_jac r = (fun p => - s_f s p) /\ x_x r = s_u s /\ x_nit r = s_nit s.
  Proof.
    intros Hn Nc. pose proof (fun j => after_iterates c j 0 _ eq_refl) as E.
    destruct (loop_fails n n (init_state K c) None) as (r&s&H1&H2&H3).
    - intros j sj fu Hj Hit. apply (Nc j sj fu Hj). rewrite <- E, Nat.add_0_r in Hit. exact Hit.
    - intros; exfalso; lia.
    - exists r, s. rewrite <- E, Nat.add_0_r in H2. auto.
  Qed.
  Lemma after_nit k s : after c k = Ok s -> s_nit s = k.
  Proof.
    revert s. induction k as [|k IH]; intros s H; cbn [after] in H; [injection H as <-; reflexivity|].
    destruct (after c k) as [s0|] eqn:E; [|discriminate]. destruct (iter K c s0) as [fu|] eqn:Hi; [|discriminate]. injection H as <-.
    apply iter_inv in Hi. destruct Hi as (h&mp&_&_&_&_&_&_&_&_&_&Hn&_). rewrite Hn, (IH s0 eq_refl). reflexivity.
  Qed.
  Lemma later_total k s fu : (1 <= k)%nat -> after c k = Ok s -> iter K c s = Ok fu ->
    (forall p, s_f (fu_state fu) p = 0) -> fu_conv fu = false.
  Proof.
    intros Hk Ha Hi Z. destruct (fu_conv fu) eqn:C0; [exfalso|reflexivity].
    destruct (after_more c El He k s Ha Hk) as (_&_&Hl&_).
    apply iter_inv in Hi. destruct Hi as (h&mp&_&_&_&Hn&_&_&_&_&_&_&_&_&_&_&H2).
    destruct (conv_inv c s h fu H2 C0) as (mp'&_&_&_&_&_&_&H). destruct (H He _ Hl) as [X _]. apply X.
    unfold tot_force. rewrite <- lsum_opp. apply lsum_zero. intros p _. rewrite <- Hn, Z. unfold bmul. destruct (comp c p); cbn; lra.
  Qed.

  (** If a call ends without convergence and without force, so does every call
      with more iterations. *)
  Lemma dead_end k r : (1 <= k)%nat -> ccg c k = Ok r -> x_success r = false -> (forall p, x_jac r p = 0) ->
    forall n, (k <= n)%nat -> exists r', ccg c n = Ok r' /\ x_success r' = false /\ x_nit r' = n /\
      x_message r' = ReachedMaxiter n /\ forall p, x_jac r' p = 0.
  Proof.
    intros Hk Hr Hs Hj n Hn.
    assert (N1 : forall j s fu, (j < k)%nat -> after c j = Ok s -> iter K c s = Ok fu -> fu_conv fu = false).
    { intros j s fu L Ha Hi. destruct (fu_conv fu) eqn:C0; [exfalso|reflexivity].
      destruct (stops c k j s fu Ha Hi C0 L) as (r'&E&S'&_). congruence. }
    destruct (fails k Hk N1) as (r0&sk&E0&Ak&_&_&J0&_). assert (r0 = r) by congruence. subst r0.
    assert (Zk : forall p, s_f sk p = 0).
    { intros p. specialize (Hj p). rewrite J0 in Hj. lra. }
    assert (Z : forall j s, (k <= j)%nat -> after c j = Ok s -> forall p, s_f s p = 0).
    { intros j s L Ha. destruct (zero_stays k sk Ak Zk (j - k)) as (s'&A'&Z'). replace (j - k + k)%nat with j in A' by lia. congruence. }
    assert (N2 : forall j s fu, (j < n)%nat -> after c j = Ok s -> iter K c s = Ok fu -> fu_conv fu = false).
    { intros j s fu L Ha Hi. destruct (le_lt_dec k j) as [Q|Q]; [|eapply N1; eauto].
      apply (later_total j s fu); auto; [lia|]. apply (zero_step s fu Hi). apply (Z j s); auto. }
    destruct (fails n ltac:(lia) N2) as (r'&s&E&A'&S'&M'&J'&_&Ni'). exists r'.
    split; [exact E|]. split; [exact S'|]. split; [rewrite Ni'; apply after_nit; exact A'|]. split; [exact M'|].
    intros p. rewrite J', (Z n s Hn A'). lra.
  Qed.
End Steps.
