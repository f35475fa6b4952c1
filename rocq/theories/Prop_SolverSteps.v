(** * C94: which kind of step the solver takes

    With a hardness the solver takes conjugate gradients steps as long as more
    than one percent of the points under compression are below the hardness,
    and mixing steps otherwise; mixing lasts at least [minmixsteps] iterations
    (ConstrainedConjugateGradients.py, lines 258-332). *)
From Coq Require Import Reals ZArith QArith Qreals Lra Lia List Arith Bool Ascii String.
From Verif Require Import Py Logger_Model Logger_Spec CCG_Model CCG_Real CCG_Spec CCG_Proofs
  CCG_Results CCG_Hom CCG_Q CCG_Witness SolverLog_Model SolverLog_Spec SolverLog_Proofs SolverLog_Exec Prop_SolverLog.
From Coq Require Import List.
Import ListNotations.
Local Open Scope string_scope.
Local Open Scope list_scope.
Local Open Scope R_scope.

(** Number of mixing steps at the end of a list of steps. *)
Definition mixed_since (l : list CCG_Model.status) : nat :=
  fold_left (fun k s => match s with Mix => S k | _ => O end) l O.

(** At least one point under compression and more than one percent of these
    points below the hardness. *)
Definition mostly_elastic {P} (c : @cfg R P) (H : R) (f : P -> R) : Prop :=
  (0 < pressed c f)%nat /\ INR (yielding_not c H f) / INR (pressed c f) > 1 / 100.

Section Steps.
  Context {P : Type}.
  Variable c : @cfg R P.
  Let K := ROps P.

  Definition run_of (s : @state R P) (k : nat) : Prop :=
    (s_str s = Mix <-> (0 < k)%nat) /\ s_mixsteps s = match k with O => O | _ => (c_minmix c - k)%nat end /\
    s_mixfac s = c_mixfac c * c_mixdec c ^ k.

  Lemma iter_kind s fu hd k : c_hard c = Some hd -> iter K c s = Ok fu -> run_of s k ->
    (s_str (fu_state fu) = Mix <-> do_cg K c s = false) /\
    run_of (fu_state fu) (match s_str (fu_state fu) with Mix => S k | _ => O end).
  Proof.
    unfold K. intros Hc I1 (A&B&D). apply iter_inv in I1.
    destruct I1 as (h&mp&Hf&_&_&_&_&_&_&Es&_&_&_&Em&_&Ef&_).
    unfold first_half in Hf. rewrite Hc in Hf. destruct (do_cg (ROps P) c s) eqn:E.
    - injection Hf as <-. assert (NM : s_str (fu_state fu) <> Mix).
      { rewrite Es. unfold new_str.
        assert (X : is_mix (h_str (cg_half (ROps P) c s)) = false) by (unfold cg_half; cbv zeta; cbn [h_str]; destruct (s_str s); reflexivity).
        rewrite X. destruct (any_nc (ROps P) c _); discriminate. }
      split; [split; [contradiction|discriminate]|].
      assert (X : match s_str (fu_state fu) with Mix => S k | _ => O end = O) by (destruct (s_str (fu_state fu)); congruence).
      rewrite X. split; [split; [contradiction|lia]|]. split.
      + rewrite Em. change (h_mixsteps (cg_half (ROps P) c s)) with (s_mixsteps s). unfold do_cg in E. rewrite Hc in E.
        apply andb_true_iff in E. destruct E as [_ E]. apply Nat.leb_le in E. lia.
      + rewrite Ef. change (h_mixfac (cg_half (ROps P) c s)) with (c_mixfac c). cbn [pow]. lra.
    - unfold mix_half in Hf. destruct (match c_ext c with None => _ | Some _ => _ end); [|discriminate].
      injection Hf as <-. assert (Y : s_str (fu_state fu) = Mix) by (rewrite Es; reflexivity).
      rewrite Y. split; [tauto|]. split; [rewrite Y; split; [lia|reflexivity]|]. split.
      + rewrite Em. cbn [h_mixsteps]. destruct (s_str s) eqn:Z; cbn [is_mix].
        4:{ rewrite B. assert (0 < k)%nat by (apply A; reflexivity). destruct k; lia. }
        all: assert (k = O) by (destruct k; [reflexivity|]; exfalso; assert (X : Reset = Mix \/ Sd = Mix \/ Cg = Mix) by
               (first [left; apply A; lia|right; left; apply A; lia|right; right; apply A; lia]);
               destruct X as [X|[X|X]]; discriminate); subst k; lia.
      + rewrite Ef. cbn [h_mixfac]. rewrite D. cbn [pow K ROps omul]. ring.
  Qed.

  Lemma chain_run hd : c_hard c = Some hd -> forall l s k, chain c s l -> run_of s k ->
    forall i fu, nth_error l i = Some fu -> exists s0 k0, iter K c s0 = Ok fu /\ run_of s0 k0 /\
      k0 = fold_left (fun k s => match s with Mix => S k | _ => O end) (firstn i (map (fun f => r_str (fu_rep f)) l)) k /\
      match i with O => s0 = s | S j => exists fj, nth_error l j = Some fj /\ s0 = fu_state fj end.
  Proof.
    intros Hc. induction l as [|f l IH]; intros s k Hch Hr i fu E; [destruct i; discriminate|]. destruct Hch as [H1 H2].
    destruct i as [|i].
    - injection E as <-. exists s, k. cbn [firstn fold_left]. auto.
    - cbn [nth_error] in E. destruct (iter_kind s f hd k Hc H1 Hr) as [_ Hr'].
      destruct (IH _ _ H2 Hr' i fu E) as (s0&k0&I1&I2&I3&I4). exists s0, k0. split; [exact I1|]. split; [exact I2|].
      split. { rewrite I3. cbn [map firstn fold_left].
        pose proof (iter_report c s f H1) as R. cbv zeta in R. destruct R as (_&R2&_). rewrite R2. reflexivity. }
      destruct i as [|j].
      + exists f. split; [reflexivity|exact I4].
      + destruct I4 as (fj&Ej&I4). exists fj. split; [exact Ej|exact I4].
  Qed.

  Lemma run_init : run_of (init_state K c) O.
  Proof. split; [split; [discriminate|lia]|]. split; [reflexivity|]. cbn [init_state s_mixfac pow]. lra. Qed.

  Lemma percent H f : mostly_elastic c H f <-> (0 < pressed c f)%nat /\ (pressed c f < 100 * yielding_not c H f)%nat.
  Proof.
    unfold mostly_elastic. split; intros [A B]; split; try exact A.
    - assert (0 < INR (pressed c f)) by (apply lt_0_INR; exact A).
      apply INR_lt. rewrite mult_INR. replace (INR 100) with 100 by (rewrite INR_IZR_INZ; reflexivity).
      apply (Rmult_lt_compat_r (INR (pressed c f))) in B; [|assumption].
      unfold Rdiv at 2 in B. rewrite (Rmult_assoc (INR (yielding_not c H f))), Rinv_l, Rmult_1_r in B by lra. lra.
    - assert (0 < INR (pressed c f)) by (apply lt_0_INR; exact A).
      apply lt_INR in B. rewrite mult_INR in B. replace (INR 100) with 100 in B by (rewrite INR_IZR_INZ; reflexivity).
      apply (Rmult_lt_reg_r (INR (pressed c f))); [assumption|].
      unfold Rdiv at 2. rewrite (Rmult_assoc (INR (yielding_not c H f))), Rinv_l, Rmult_1_r by lra. lra.
  Qed.
End Steps.

(** For all inputs with a hardness: step number [i + 1] of a run is a mixing step
    if and only if the forces before it are not mostly elastic, or mixing has
    begun and has not yet lasted [minmixsteps] steps. *)
Theorem C94_kind : forall P (c : @cfg R P) n evs r H, c_hard c = Some (HScalar H) -> 0 <= H ->
  run_trace (ROps P) c n = (evs, Ok r) ->
  forall i s, nth_error (statuses evs) i = Some s ->
  let m := mixed_since (firstn i (statuses evs)) in
  s = Mix <-> ~ mostly_elastic c H (force_before c evs r i) \/ (0 < m < c_minmix c)%nat.
Proof.
  intros P c n evs r H Hc Hp Ht i s E m. unfold m. clear m.
  assert (Hh : hardness_nonneg c) by (unfold hardness_nonneg; rewrite Hc; exact Hp).
  destruct (run_rows c n evs r Ht) as (l'&fu&Hch&Hn&_&Hst&Hf&_).
  cbn zeta in *. set (l := l' ++ [fu]) in *. rewrite Hst in E |- *. rewrite nth_error_map in E.
  destruct (nth_error l i) as [f|] eqn:Ef; [|discriminate]. injection E as E.
  destruct (chain_run c _ Hc l _ O Hch (run_init c) i f Ef) as (s0&k0&I1&I2&I3&I4).
  change (mixed_since (firstn i (map (fun fu => r_str (fu_rep fu)) l))) with
    (fold_left (fun k s => match s with Mix => S k | _ => O end) (firstn i (map (fun f => r_str (fu_rep f)) l)) O).
  rewrite <- I3. clear I3.
  assert (PI : pad_inv c s0 /\ forall p, comp c p = true -> s_f s0 p = force_before c evs r i p).
  { destruct i as [|j]; cbn [force_before].
    - subst s0. split; [apply pad_inv_init|]. intros p Cp. apply init_start. exact Cp.
    - destruct I4 as (fj&Ej&->). split; [exact (chain_pad c Hh _ _ _ _ (pad_inv_init c) Hch Ej)|].
      intros p _. symmetry. apply Hf. exact Ej. }
  destruct PI as [PI PF].
  destruct (iter_kind c s0 f _ k0 Hc I1 I2) as [KD _].
  pose proof (iter_report c s0 f I1) as R. cbv zeta in R. destruct R as (_&R2&_).
  rewrite <- E, R2, KD, percent.
  pose proof (area_ok c s0 evs r i PI PF) as A1. pose proof (cg_area_ok c s0 evs r i PI PF) as A2. rewrite Hc in A2.
  unfold do_cg. rewrite Hc. cbv zeta. rewrite A1, A2. destruct I2 as (_&B&_). rewrite B.
  rewrite !andb_false_iff, !Nat.ltb_ge, Nat.leb_gt. destruct k0; lia.
Qed.
Print Assumptions C94_kind.

(** The mixing factor of a detailed log: the given one, times the decrease factor
    once for every mixing step since mixing began. *)
Theorem C94_mixfac : forall P (c : @cfg R P) n pt evs r H, c_hard c = Some (HScalar H) ->
  run_trace (ROps P) c n = (evs, Ok r) ->
  forall i k, nth_error (status_calls (solver_requests c true n pt evs)) i = Some k ->
  nth_error (statuses evs) i = Some Mix ->
  column "mixfac" k = Some (real (c_mixfac c * c_mixdec c ^ mixed_since (firstn (S i) (statuses evs)))).
Proof.
  intros P c n pt evs r H Hc Ht i k E Es.
  destruct (run_rows c n evs r Ht) as (l'&fu&Hch&Hn&Hl&Hst&_). cbn zeta in *. set (l := l' ++ [fu]) in *.
  rewrite solver_calls, Hl, nth_error_map in E.
  destruct (nth_error (map quiet l' ++ [(final_label (x_success r), true, fu_rep fu)]) i) as [x|] eqn:EX; [|discriminate].
  injection E as <-.
  assert (F : exists f, nth_error l i = Some f /\ snd x = fu_rep f).
  { unfold l. destruct (Nat.lt_trichotomy i (List.length l')) as [I|[I|I]].
    - rewrite nth_error_app1 in EX by (rewrite map_length; exact I). rewrite nth_error_map in EX.
      rewrite nth_error_app1 by exact I. destruct (nth_error l' i) as [f|]; [|discriminate].
      assert (x = quiet f) by (cbn [option_map] in EX; congruence). subst x. exists f. split; reflexivity.
    - subst i. rewrite nth_error_app2, map_length, Nat.sub_diag in EX by (rewrite map_length; lia). injection EX as <-.
      rewrite nth_error_app2, Nat.sub_diag by lia. exists fu. split; reflexivity.
    - assert (nth_error (map quiet l' ++ [(final_label (x_success r), true, fu_rep fu)]) i = None)
        by (apply nth_error_None; rewrite app_length, map_length; cbn; lia). congruence. }
  destruct F as (f&Ef&Sx).
  destruct (chain_run c _ Hc l _ O Hch (run_init c) i f Ef) as (s0&k0&I1&I2&I3&_).
  destruct (iter_kind c s0 f _ k0 Hc I1 I2) as [_ R'].
  pose proof (iter_report c s0 f I1) as R. cbv zeta in R. destruct R as (_&R2&_&_&_&_&_&R8&_).
  assert (Es' : r_str (fu_rep f) = Mix).
  { rewrite Hst, nth_error_map, Ef in Es. injection Es as Es. exact Es. }
  rewrite col_mixfac; [|reflexivity|rewrite Sx, Es'; reflexivity]. rewrite Sx, R8.
  rewrite <- R2, Es' in R'. destruct R' as (_&_&R'). rewrite R'. do 5 f_equal.
  assert (FS : firstn (S i) (statuses evs) = firstn i (statuses evs) ++ [Mix]).
  { revert Es. generalize (statuses evs). clear. induction i as [|i IH]; intros [|a l] E; try discriminate.
    - injection E as ->. reflexivity.
    - cbn [nth_error] in E. change (firstn (S (S i)) (a :: l)) with (a :: firstn (S i) l).
      rewrite (IH l E). reflexivity. }
  unfold mixed_since. rewrite FS, fold_left_app. cbn [fold_left]. rewrite Hst, <- I3. reflexivity.
Qed.
Print Assumptions C94_mixfac.

(** Non-vacuity: the run with one conjugate gradients and one mixing step: all
    points are below the hardness before the first step, none before the second. *)
Example C94_nonvacuous : exists evs r, run_trace (ROps bool) L1c 3 = (evs, Ok r) /\
  c_hard L1c = Some (HScalar (Q2R (1#10))) /\ 0 <= Q2R (1#10) /\ statuses evs = [Cg; Mix] /\
  mostly_elastic L1c (Q2R (1#10)) (force_before L1c evs r 0) /\
  ~ mostly_elastic L1c (Q2R (1#10)) (force_before L1c evs r 1).
Proof.
  destruct C86_nonvacuous as (evs&r&R1&H). cbv zeta in H. destruct H as (_&Hc&_&_&_&St&_). exists evs, r.
  assert (Hp : 0 <= Q2R (1#10)) by (unfold Q2R; cbn; lra).
  split; [exact R1|]. split; [exact Hc|]. split; [exact Hp|]. split; [exact St|].
  pose proof (C94_kind _ L1c 3 evs r _ Hc Hp R1 0 Cg) as A. rewrite St in A. specialize (A eq_refl). cbv zeta in A.
  pose proof (C94_kind _ L1c 3 evs r _ Hc Hp R1 1 Mix) as B. rewrite St in B. specialize (B eq_refl). cbv zeta in B.
  cbn [firstn mixed_since fold_left] in A, B. split.
  - destruct (Nat.lt_ge_cases 0 (pressed L1c (force_before L1c evs r 0))) as [X|X].
    + destruct (Rlt_dec (1/100) (INR (yielding_not L1c (Q2R (1#10)) (force_before L1c evs r 0)) / INR (pressed L1c (force_before L1c evs r 0)))) as [Y|Y].
      * split; [exact X|exact Y].
      * exfalso. assert (Z : Cg = Mix); [|discriminate]. apply A. left. intros [_ Q]. apply Y. exact Q.
    + exfalso. assert (Z : Cg = Mix); [|discriminate]. apply A. left. intros [Q _]. lia.
  - destruct (proj1 B eq_refl) as [Q|Q]; [exact Q|lia].
Qed.
