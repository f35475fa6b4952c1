(** * Fixed points of projected iterations of a positive operator *)
From Coq Require Import Reals Lia Lra List Arith.
From Coquelicot Require Import Coquelicot.
From Verif Require Import FFT_Base Signorini_Base.
Local Open Scope R_scope.

Definition clamp (H a : R) : R := Rmin H (Rmax 0 a).
Lemma clamp_sq : forall H a c, (clamp H a - clamp H c) * (clamp H a - clamp H c) <= (a - c) * (a - c).
Proof.
  assert (M : forall H a c, (Rmin H a - Rmin H c) * (Rmin H a - Rmin H c) <= (a - c) * (a - c)).
  { intros H a c. replace (Rmin H a) with (H - Rmax 0 (H - a)).
    2:{ unfold Rmax, Rmin. destruct (Rle_dec 0 (H - a)), (Rle_dec H a); lra. }
    replace (Rmin H c) with (H - Rmax 0 (H - c)).
    2:{ unfold Rmax, Rmin. destruct (Rle_dec 0 (H - c)), (Rle_dec H c); lra. }
    pose proof (Rmax_sq (H - a) (H - c)). nra. }
  intros H a c. eapply Rle_trans; [apply M|apply Rmax_sq].
Qed.

(** As in [Signorini_Base], for any map [proj] that brings points no further
    apart. *)
Section Projected.
  Variables (n m : nat) (Cop : field -> field) (lam Lam : R) (b : field) (proj : R -> R).
  Hypothesis Pj : forall a c, (proj a - proj c) * (proj a - proj c) <= (a - c) * (a - c).
  Hypothesis Plam : 0 < lam.
  Hypothesis PLam : 0 < Lam.
  Let on (x y : nat) : Prop := (x < n)%nat /\ (y < m)%nat.
  Let sub (f g : field) : field := fun x y => f x y - g x y.
  Let sq (f : field) : R := Rsum2 n m (fun x y => f x y * f x y).
  Hypothesis Clin : forall f g x y, on x y -> Cop (sub f g) x y = Cop f x y - Cop g x y.
  Hypothesis Clow : forall f, lam * sq f <= Rsum2 n m (fun x y => f x y * Cop f x y).
  Hypothesis Cup : forall f, sq (Cop f) <= Lam * sq f.

  Let tau := lam / Lam.
  Definition project_step (p : field) : field := fun x y => proj (p x y - tau * (Cop p x y - b x y)).
  Let kappa := Rmax 0 (1 - lam * lam / Lam).
  Lemma kappa_range : 0 <= kappa < 1.
  Proof.
    unfold kappa. assert (0 < lam * lam / Lam) by (apply Rdiv_lt_0_compat; nra).
    split; [apply Rmax_l|]. apply Rmax_case; lra.
  Qed.
  Lemma sq_nonneg : forall f, 0 <= sq f.
  Proof. intros f. apply Rsum2_nonneg. intros. nra. Qed.
  Lemma contraction : forall p q, sq (sub (project_step p) (project_step q)) <= kappa * sq (sub p q).
  Proof.
    intros p q.
    apply Rle_trans with (Rsum2 n m (fun x y => sub p q x y * sub p q x y
      + (-2 * tau * (sub p q x y * Cop (sub p q) x y) + tau * tau * (Cop (sub p q) x y * Cop (sub p q) x y)))).
    - apply Rsum2_le. intros x y Hx Hy. unfold sub at 1 2. unfold project_step.
      eapply Rle_trans; [apply Pj|]. rewrite (Clin p q x y (conj Hx Hy)). unfold sub. apply Req_le. ring.
    - rewrite !Rsum2_plus, !Rsum2_scal. fold (sq (sub p q)). fold (sq (Cop (sub p q))).
      pose proof (Clow (sub p q)) as L. pose proof (Cup (sub p q)) as U. pose proof (sq_nonneg (sub p q)) as N.
      assert (T : 0 < tau) by (apply Rdiv_lt_0_compat; assumption).
      apply Rle_trans with ((1 - lam * lam / Lam) * sq (sub p q)).
      + assert (E1 : tau * tau * sq (Cop (sub p q)) <= tau * tau * (Lam * sq (sub p q))) by (apply Rmult_le_compat_l; nra).
        assert (E2 : 2 * tau * (lam * sq (sub p q)) <= 2 * tau * Rsum2 n m (fun x y => sub p q x y * Cop (sub p q) x y))
          by (apply Rmult_le_compat_l; nra).
        assert (E3 : tau * tau * (Lam * sq (sub p q)) = lam * lam / Lam * sq (sub p q)) by (unfold tau; field; lra).
        assert (E4 : 2 * tau * (lam * sq (sub p q)) = 2 * (lam * lam / Lam * sq (sub p q))) by (unfold tau; field; lra).
        lra.
      + apply Rmult_le_compat_r; [exact N|]. apply Rmax_r.
  Qed.

  Fixpoint iterate (k : nat) : field := match k with O => fun _ _ => 0 | S k => project_step (iterate k) end.
  Let d0 := sq (sub (iterate 1) (iterate 0)).
  Lemma step_size : forall k, sq (sub (iterate (S k)) (iterate k)) <= kappa ^ k * d0.
  Proof.
    pose proof kappa_range as K. induction k as [|k IH]; [unfold d0; cbn [pow]; lra|].
    change (iterate (S (S k))) with (project_step (iterate (S k))). change (iterate (S k)) with (project_step (iterate k)) at 2.
    eapply Rle_trans; [apply contraction|]. cbn [pow]. rewrite Rmult_assoc. apply Rmult_le_compat_l; [lra|exact IH].
  Qed.
  Definition limit : field := fun x y => Lim_seq (fun k => iterate k x y).

  Lemma iterate_converges : forall x y, on x y -> is_lim_seq (fun k => iterate k x y) (limit x y).
  Proof.
    intros x y [Hx Hy]. pose proof kappa_range as K.
    set (r := sqrt kappa).
    assert (R1 : 0 <= r < 1).
    { split; [apply sqrt_pos|]. unfold r. rewrite <- sqrt_1. apply sqrt_lt_1; lra. }
    assert (RK : forall k, sqrt (kappa ^ k) = r ^ k).
    { intros k. rewrite <- (sqrt_pow2 (r ^ k)) by (apply pow_le; lra). f_equal.
      rewrite <- Rpow_mult_distr || idtac. unfold r. rewrite <- !pow_mult, Nat.mul_comm, pow_mult. rewrite pow2_sqrt by lra. reflexivity. }
    assert (B : forall k, Rabs (iterate (S k) x y - iterate k x y) <= sqrt d0 * r ^ k).
    { intros k. rewrite <- sqrt_Rsqr_abs. rewrite <- RK, <- sqrt_mult_alt by apply sq_nonneg. apply sqrt_le_1_alt.
      rewrite Rmult_comm. eapply Rle_trans; [|apply step_size].
      apply (Rsum2_term n m (fun x y => sub (iterate (S k)) (iterate k) x y * sub (iterate (S k)) (iterate k) x y) x y);
        [intros; nra|assumption|assumption]. }
    assert (ES : ex_series (fun k => iterate (S k) x y - iterate k x y)).
    { apply (@ex_series_le R_AbsRing R_CompleteNormedModule _ (fun k => sqrt d0 * r ^ k)); [exact B|]. apply (ex_series_scal_l (sqrt d0) (fun k => r ^ k)). exists (/ (1 - r)).
      apply is_series_geom. rewrite Rabs_pos_eq; lra. }
    destruct ES as [l L].
    assert (T : forall k, sum_n (fun k => iterate (S k) x y - iterate k x y) k = iterate (S k) x y).
    { induction k as [|k IH].
      - rewrite sum_O. change (@eq R (iterate 1 x y - 0) (iterate 1 x y)). ring.
      - rewrite sum_Sn, IH. change (@eq R (iterate (S k) x y + (iterate (S (S k)) x y - iterate (S k) x y)) (iterate (S (S k)) x y)). ring. }
    assert (L2 : is_lim_seq (fun k => iterate k x y) l).
    { apply (proj2 (is_lim_seq_incr_1 (fun k => iterate k x y) _)). apply (is_lim_seq_ext (sum_n (fun k => iterate (S k) x y - iterate k x y))); [exact T|exact L]. }
    unfold limit. rewrite (is_lim_seq_unique _ _ L2). exact L2.
  Qed.

  Lemma limit_fixed : forall x y, on x y -> project_step limit x y = limit x y.
  Proof.
    intros x y O. pose proof kappa_range as K.
    assert (D : is_lim_seq (fun k => sq (sub limit (iterate k))) 0).
    { replace 0 with (Rsum2 n m (fun x y => 0)) by (rewrite Rsum2_const; ring).
      apply (Rsum2_lim n m (fun k x y => sub limit (iterate k) x y * sub limit (iterate k) x y)). intros i j Hi Hj.
      replace (Finite 0) with (Finite (0 * 0)) by (f_equal; ring).
      assert (Z : is_lim_seq (fun k => sub limit (iterate k) i j) 0).
      { unfold sub. replace 0 with (limit i j - limit i j) by ring. apply is_lim_seq_minus'; [apply is_lim_seq_const|].
        apply iterate_converges. split; assumption. }
      apply is_lim_seq_mult'; exact Z. }
    set (z := project_step limit x y - limit x y).
    assert (L1 : is_lim_seq (fun k => (project_step limit x y - iterate (S k) x y) * (project_step limit x y - iterate (S k) x y)) (z * z)).
    { assert (W : is_lim_seq (fun k => project_step limit x y - iterate (S k) x y) z).
      { unfold z. apply is_lim_seq_minus'; [apply is_lim_seq_const|]. apply (proj1 (is_lim_seq_incr_1 (fun k => iterate k x y) _)). apply iterate_converges. exact O. }
      apply is_lim_seq_mult'; exact W. }
    assert (Z : z * z <= 0).
    { change (Rbar_le (z * z) 0). eapply is_lim_seq_le; [|exact L1|exact D]. intros k.
      eapply Rle_trans; [|eapply Rle_trans; [apply (contraction limit (iterate k))|]].
      - change (iterate (S k)) with (project_step (iterate k)).
        apply (Rsum2_term n m (fun x y => sub (project_step limit) (project_step (iterate k)) x y
          * sub (project_step limit) (project_step (iterate k)) x y) x y); [intros; nra|apply O|apply O].
      - pose proof (sq_nonneg (sub limit (iterate k))). nra. }
    unfold z in Z. nra.
  Qed.

End Projected.

Lemma clamp_fixed : forall H tau p w, 0 <= H -> 0 < tau -> clamp H (p - tau * w) = p ->
  0 <= p <= H /\ (p < H -> 0 <= w) /\ (0 < p -> w <= 0).
Proof.
  intros H tau p w PH T E. unfold clamp, Rmin, Rmax in E.
  destruct (Rle_dec 0 (p - tau * w)) as [L|L]; destruct (Rle_dec H _) as [L2|L2]; (split; [lra|]); split; intros Q; nra.
Qed.
