(** * The discrete Fourier transform, exactly.

    The substrates of ContactMechanics/FFTElasticHalfSpace.py talk to
    muGrid's [FFTEngine] through three members only: [fft] (real to half
    complex), [ifft] (half complex to real) and [normalisation].  This file
    gives these external functions their mathematical meaning over the exact
    complex numbers, and proves what is needed about them.  Nothing here
    models a line of /repo; the correspondence of [rfft2]/[irfft2] to the
    engine (unnormalised in both directions, first axis halved, columns of
    the discarded half reconstructed by Hermitian symmetry, imaginary parts
    of self-conjugate entries ignored) is part of the trusted base and is
    listed in DESIGN.md. *)

From Coq Require Import Reals ZArith Lia Lra List Arith.
From Coquelicot Require Import Complex.
Import ListNotations.
Local Open Scope R_scope.
Local Open Scope C_scope.

(** ** Finite sums *)

Fixpoint Csum (n : nat) (f : nat -> C) : C :=
  match n with O => 0 | S m => Csum m f + f m end.

Fixpoint Rsum (n : nat) (f : nat -> R) : R :=
  match n with O => 0%R | S m => (Rsum m f + f m)%R end.

Lemma Csum_ext : forall n f g,
  (forall i, (i < n)%nat -> f i = g i) -> Csum n f = Csum n g.
Proof.
  induction n; intros f g H; simpl; auto.
  rewrite (IHn f g) by (intros; apply H; lia). rewrite H by lia. reflexivity.
Qed.

Lemma Rsum_ext : forall n f g,
  (forall i, (i < n)%nat -> f i = g i) -> Rsum n f = Rsum n g.
Proof.
  induction n; intros f g H; simpl; auto.
  rewrite (IHn f g) by (intros; apply H; lia). rewrite H by lia. reflexivity.
Qed.

Lemma Csum_0 : forall n, Csum n (fun _ => 0) = 0.
Proof. induction n; simpl; auto. rewrite IHn. ring. Qed.

Lemma Rsum_0 : forall n, Rsum n (fun _ => 0%R) = 0%R.
Proof. induction n; simpl; auto. rewrite IHn. ring. Qed.

Lemma Csum_plus : forall n f g,
  Csum n (fun i => f i + g i) = Csum n f + Csum n g.
Proof. induction n; intros; simpl. ring. rewrite IHn. ring. Qed.

Lemma Rsum_plus : forall n f g,
  Rsum n (fun i => (f i + g i)%R) = (Rsum n f + Rsum n g)%R.
Proof. induction n; intros; simpl. ring. rewrite IHn. ring. Qed.

Lemma Csum_scal : forall n c f, Csum n (fun i => c * f i) = c * Csum n f.
Proof. induction n; intros; simpl. ring. rewrite IHn. ring. Qed.

Lemma Csum_scal_r : forall n c f, Csum n (fun i => f i * c) = Csum n f * c.
Proof. induction n; intros; simpl. ring. rewrite IHn. ring. Qed.

Lemma Rsum_scal : forall n c f, Rsum n (fun i => (c * f i)%R) = (c * Rsum n f)%R.
Proof. induction n; intros; simpl. ring. rewrite IHn. ring. Qed.

Lemma Rsum_scal_r : forall n c f, Rsum n (fun i => (f i * c)%R) = (Rsum n f * c)%R.
Proof. induction n; intros; simpl. ring. rewrite IHn. ring. Qed.

Lemma Csum_const : forall n c, Csum n (fun _ => c) = RtoC (INR n) * c.
Proof.
  induction n; intros.
  - simpl. ring.
  - rewrite S_INR, RtoC_plus. cbn [Csum]. rewrite IHn. ring.
Qed.

Lemma Rsum_const : forall n c, Rsum n (fun _ => c) = (INR n * c)%R.
Proof.
  induction n; intros.
  - simpl. ring.
  - rewrite S_INR. cbn [Rsum]. rewrite IHn. ring.
Qed.

Lemma Csum_swap : forall n m (f : nat -> nat -> C),
  Csum n (fun i => Csum m (fun j => f i j))
  = Csum m (fun j => Csum n (fun i => f i j)).
Proof.
  induction n; intros; simpl.
  - symmetry. apply Csum_0.
  - rewrite IHn, <- Csum_plus. reflexivity.
Qed.

Lemma Rsum_swap : forall n m (f : nat -> nat -> R),
  Rsum n (fun i => Rsum m (fun j => f i j))
  = Rsum m (fun j => Rsum n (fun i => f i j)).
Proof.
  induction n; intros; simpl.
  - symmetry. apply Rsum_0.
  - rewrite IHn, <- Rsum_plus. reflexivity.
Qed.

Lemma Csum_delta : forall n k f, (k < n)%nat ->
  Csum n (fun i => if Nat.eqb i k then f i else 0) = f k.
Proof.
  induction n; intros k f H; [lia|].
  simpl. destruct (Nat.eqb_spec n k) as [E|E].
  - subst. rewrite (Csum_ext _ _ (fun _ => 0)).
    + rewrite Csum_0. ring.
    + intros i Hi. destruct (Nat.eqb_spec i k); [lia|reflexivity].
  - rewrite IHn by lia. ring.
Qed.

Lemma Rsum_delta : forall n k f, (k < n)%nat ->
  Rsum n (fun i => if Nat.eqb i k then f i else 0%R) = f k.
Proof.
  induction n; intros k f H; [lia|].
  simpl. destruct (Nat.eqb_spec n k) as [E|E].
  - subst. rewrite (Rsum_ext _ _ (fun _ => 0%R)).
    + rewrite Rsum_0. ring.
    + intros i Hi. destruct (Nat.eqb_spec i k); [lia|reflexivity].
  - rewrite IHn by lia. ring.
Qed.

Lemma Rsum_split : forall n m f,
  Rsum (n + m) f = (Rsum n f + Rsum m (fun i => f (n + i)%nat))%R.
Proof.
  induction m; intros.
  - rewrite Nat.add_0_r. simpl. ring.
  - rewrite Nat.add_succ_r. simpl. rewrite IHm. ring.
Qed.

Lemma Csum_split : forall n m f,
  Csum (n + m) f = Csum n f + Csum m (fun i => f (n + i)%nat).
Proof.
  induction m; intros.
  - rewrite Nat.add_0_r. simpl. ring.
  - rewrite Nat.add_succ_r. simpl. rewrite IHm. ring.
Qed.

Lemma Csum_rev : forall n f,
  Csum n f = Csum n (fun i => f (n - 1 - i)%nat).
Proof.
  induction n; intros; [reflexivity|].
  replace (S n) with (1 + n)%nat at 2 by lia.
  rewrite Csum_split. cbn [Csum].
  replace (S n - 1 - 0)%nat with n by lia.
  rewrite (IHn f).
  rewrite (Csum_ext n (fun i => f (S n - 1 - (1 + i))%nat)
                    (fun i => f (n - 1 - i)%nat)).
  - ring.
  - intros i Hi. f_equal. lia.
Qed.

Lemma Re_plus : forall a b, Re (a + b) = (Re a + Re b)%R.
Proof. reflexivity. Qed.
Lemma Im_plus : forall a b, Im (a + b) = (Im a + Im b)%R.
Proof. reflexivity. Qed.
Lemma Re_RtoC : forall r, Re (RtoC r) = r.
Proof. reflexivity. Qed.
Lemma Im_RtoC : forall r, Im (RtoC r) = 0%R.
Proof. reflexivity. Qed.
Lemma Re_scal : forall r a, Re (RtoC r * a) = (r * Re a)%R.
Proof. intros. unfold Re, Cmult, RtoC. simpl. ring. Qed.
Lemma Im_scal : forall r a, Im (RtoC r * a) = (r * Im a)%R.
Proof. intros. unfold Im, Cmult, RtoC. simpl. ring. Qed.
Lemma Re_scal_r : forall r a, Re (a * RtoC r) = (Re a * r)%R.
Proof. intros. unfold Re, Cmult, RtoC. simpl. ring. Qed.
Lemma Re_conj : forall a, Re (Cconj a) = Re a.
Proof. reflexivity. Qed.
Lemma Im_conj : forall a, Im (Cconj a) = (- Im a)%R.
Proof. reflexivity. Qed.
Lemma Re_opp : forall a, Re (- a) = (- Re a)%R.
Proof. reflexivity. Qed.

Lemma C_eq : forall a b : C, Re a = Re b -> Im a = Im b -> a = b.
Proof. intros [? ?] [? ?]; simpl; intros; subst; reflexivity. Qed.

Lemma Csum_Re : forall n f, Re (Csum n f) = Rsum n (fun i => Re (f i)).
Proof. induction n; intros; simpl. reflexivity. rewrite <- IHn. reflexivity. Qed.

Lemma Csum_Im : forall n f, Im (Csum n f) = Rsum n (fun i => Im (f i)).
Proof. induction n; intros; simpl. reflexivity. rewrite <- IHn. reflexivity. Qed.

Lemma Csum_RtoC : forall n f, RtoC (Rsum n f) = Csum n (fun i => RtoC (f i)).
Proof.
  induction n; intros; simpl; auto. rewrite RtoC_plus, IHn. reflexivity.
Qed.

Lemma Cconj_plus : forall a b, Cconj (a + b) = Cconj a + Cconj b.
Proof. intros. apply C_eq; unfold Re, Im, Cconj, Cplus, Cmult, Copp, RtoC; simpl; ring. Qed.
Lemma Cconj_mult : forall a b, Cconj (a * b) = Cconj a * Cconj b.
Proof. intros. apply C_eq; unfold Re, Im, Cconj, Cplus, Cmult, Copp, RtoC; simpl; ring. Qed.
Lemma Cconj_RtoC : forall r, Cconj (RtoC r) = RtoC r.
Proof. intros. apply C_eq; unfold Re, Im, Cconj, Cplus, Cmult, Copp, RtoC; simpl; ring. Qed.
Lemma Cconj_invol : forall a, Cconj (Cconj a) = a.
Proof. intros. apply C_eq; unfold Re, Im, Cconj, Cplus, Cmult, Copp, RtoC; simpl; ring. Qed.
Lemma Cconj_opp : forall a, Cconj (- a) = - Cconj a.
Proof. intros. apply C_eq; unfold Re, Im, Cconj, Cplus, Cmult, Copp, RtoC; simpl; ring. Qed.

Lemma Csum_conj : forall n f,
  Cconj (Csum n f) = Csum n (fun i => Cconj (f i)).
Proof.
  induction n; intros; simpl.
  - apply C_eq; unfold Re, Im, Cconj, RtoC; simpl; ring.
  - rewrite Cconj_plus, IHn. reflexivity.
Qed.

(** Negation and translation of periodic indices. *)
Definition neg (N k : nat) : nat := ((N - k) mod N)%nat.

Lemma neg_lt : forall N k, (0 < N)%nat -> (neg N k < N)%nat.
Proof. intros. apply Nat.mod_upper_bound. lia. Qed.

Lemma neg_0 : forall N, (0 < N)%nat -> neg N 0 = 0%nat.
Proof. intros. unfold neg. rewrite Nat.sub_0_r. apply Nat.mod_same. lia. Qed.

Lemma neg_pos : forall N k, (0 < k < N)%nat -> neg N k = (N - k)%nat.
Proof. intros. unfold neg. apply Nat.mod_small. lia. Qed.

Lemma neg_neg : forall N k, (k < N)%nat -> neg N (neg N k) = k.
Proof.
  intros N k H. destruct (Nat.eq_dec k 0) as [E|E].
  - subst. rewrite !neg_0 by lia. reflexivity.
  - rewrite (neg_pos N k), neg_pos by lia. lia.
Qed.

Lemma Csum_neg : forall N g, (0 < N)%nat ->
  Csum N (fun k => g (neg N k)) = Csum N g.
Proof.
  intros N g H. destruct N as [|n]; [lia|].
  replace (S n) with (1 + n)%nat by lia. rewrite !Csum_split. cbn [Csum].
  rewrite neg_0 by lia. f_equal.
  rewrite (Csum_rev n (fun i => g (1 + i)%nat)).
  apply Csum_ext. intros i Hi. f_equal. rewrite neg_pos by lia. lia.
Qed.

Lemma Csum_shift : forall N a g, (0 < N)%nat ->
  Csum N (fun x => g ((x + a) mod N)%nat) = Csum N g.
Proof.
  intros N a g H.
  set (b := (a mod N)%nat).
  assert (Hb : (b < N)%nat) by (apply Nat.mod_upper_bound; lia).
  rewrite (Csum_ext N _ (fun x => g ((x + b) mod N)%nat)).
  2:{ intros. f_equal. unfold b. rewrite Nat.add_mod_idemp_r by lia. reflexivity. }
  replace N with ((N - b) + b)%nat at 1 by lia.
  rewrite Csum_split.
  replace (Csum N g) with (Csum (b + (N - b)) g) by (f_equal; lia).
  rewrite Csum_split, Cplus_comm. f_equal.
  - apply Csum_ext. intros i Hi. f_equal.
    replace (N - b + i + b)%nat with (i + 1 * N)%nat by lia.
    rewrite Nat.mod_add by lia. apply Nat.mod_small. lia.
  - apply Csum_ext. intros i Hi. f_equal.
    rewrite Nat.mod_small by lia. lia.
Qed.

Lemma Rsum_Re : forall n f, Rsum n f = Re (Csum n (fun i => RtoC (f i))).
Proof. intros. rewrite Csum_Re. reflexivity. Qed.

Lemma Rsum_neg : forall N g, (0 < N)%nat ->
  Rsum N (fun k => g (neg N k)) = Rsum N g.
Proof.
  intros. rewrite !Rsum_Re.
  rewrite (Csum_neg N (fun k => RtoC (g k))) by assumption. reflexivity.
Qed.

Lemma Rsum_shift : forall N a g, (0 < N)%nat ->
  Rsum N (fun x => g ((x + a) mod N)%nat) = Rsum N g.
Proof.
  intros. rewrite !Rsum_Re.
  rewrite (Csum_shift N a (fun k => RtoC (g k))) by assumption. reflexivity.
Qed.

Lemma Rsum_nonneg : forall n f, (forall i, (i < n)%nat -> (0 <= f i)%R) ->
  (0 <= Rsum n f)%R.
Proof.
  induction n; intros f H; simpl; [lra|].
  assert (0 <= Rsum n f)%R by (apply IHn; intros; apply H; lia).
  assert (0 <= f n)%R by (apply H; lia). lra.
Qed.

Lemma Rsum_zero_terms : forall n f, (forall i, (i < n)%nat -> (0 <= f i)%R) ->
  Rsum n f = 0%R -> forall i, (i < n)%nat -> f i = 0%R.
Proof.
  induction n; intros f H E i Hi; [lia|].
  simpl in E.
  assert (0 <= Rsum n f)%R by (apply Rsum_nonneg; intros; apply H; lia).
  assert (0 <= f n)%R by (apply H; lia).
  destruct (Nat.eq_dec i n); [subst; lra|].
  apply (IHn f); [intros; apply H; lia|lra|lia].
Qed.

(** Two-dimensional sums. *)
Definition Csum2 (n m : nat) (f : nat -> nat -> C) : C :=
  Csum n (fun i => Csum m (fun j => f i j)).
Definition Rsum2 (n m : nat) (f : nat -> nat -> R) : R :=
  Rsum n (fun i => Rsum m (fun j => f i j)).

Lemma Csum2_ext : forall n m f g,
  (forall i j, (i < n)%nat -> (j < m)%nat -> f i j = g i j) ->
  Csum2 n m f = Csum2 n m g.
Proof. intros. apply Csum_ext; intros. apply Csum_ext; intros. auto. Qed.

Lemma Rsum2_ext : forall n m f g,
  (forall i j, (i < n)%nat -> (j < m)%nat -> f i j = g i j) ->
  Rsum2 n m f = Rsum2 n m g.
Proof. intros. apply Rsum_ext; intros. apply Rsum_ext; intros. auto. Qed.

Lemma Csum2_plus : forall n m f g,
  Csum2 n m (fun i j => f i j + g i j) = Csum2 n m f + Csum2 n m g.
Proof.
  intros. unfold Csum2. rewrite <- Csum_plus. apply Csum_ext. intros.
  apply Csum_plus.
Qed.

Lemma Rsum2_plus : forall n m f g,
  Rsum2 n m (fun i j => f i j + g i j)%R = (Rsum2 n m f + Rsum2 n m g)%R.
Proof.
  intros. unfold Rsum2. rewrite <- Rsum_plus. apply Rsum_ext. intros.
  apply Rsum_plus.
Qed.

Lemma Csum2_scal : forall n m c f,
  Csum2 n m (fun i j => c * f i j) = c * Csum2 n m f.
Proof.
  intros. unfold Csum2. rewrite <- Csum_scal. apply Csum_ext. intros.
  apply Csum_scal.
Qed.

Lemma Csum2_scal_r : forall n m c f,
  Csum2 n m (fun i j => f i j * c) = Csum2 n m f * c.
Proof.
  intros. unfold Csum2. rewrite <- Csum_scal_r. apply Csum_ext. intros.
  apply Csum_scal_r.
Qed.

Lemma Rsum2_scal : forall n m c f,
  Rsum2 n m (fun i j => c * f i j)%R = (c * Rsum2 n m f)%R.
Proof.
  intros. unfold Rsum2. rewrite <- Rsum_scal. apply Rsum_ext. intros.
  apply Rsum_scal.
Qed.

Lemma Rsum2_const : forall n m c,
  Rsum2 n m (fun _ _ => c) = (INR n * INR m * c)%R.
Proof.
  intros. unfold Rsum2.
  rewrite (Rsum_ext n _ (fun _ => INR m * c)%R).
  - rewrite Rsum_const. ring.
  - intros. apply Rsum_const.
Qed.

Lemma Csum2_conj : forall n m f,
  Cconj (Csum2 n m f) = Csum2 n m (fun i j => Cconj (f i j)).
Proof.
  intros. unfold Csum2. rewrite Csum_conj. apply Csum_ext. intros.
  apply Csum_conj.
Qed.

Lemma Csum2_Re : forall n m f,
  Re (Csum2 n m f) = Rsum2 n m (fun i j => Re (f i j)).
Proof.
  intros. unfold Csum2, Rsum2. rewrite Csum_Re. apply Rsum_ext. intros.
  apply Csum_Re.
Qed.

Lemma Csum2_RtoC : forall n m f,
  RtoC (Rsum2 n m f) = Csum2 n m (fun i j => RtoC (f i j)).
Proof.
  intros. unfold Csum2, Rsum2. rewrite Csum_RtoC. apply Csum_ext. intros.
  apply Csum_RtoC.
Qed.

Lemma Csum2_swap4 : forall n m p q (f : nat -> nat -> nat -> nat -> C),
  Csum2 n m (fun i j => Csum2 p q (fun k l => f i j k l))
  = Csum2 p q (fun k l => Csum2 n m (fun i j => f i j k l)).
Proof.
  intros. unfold Csum2.
  transitivity (Csum n (fun i => Csum p (fun k => Csum m (fun j =>
     Csum q (fun l => f i j k l))))).
  { apply Csum_ext; intros. apply Csum_swap. }
  rewrite Csum_swap. apply Csum_ext; intros k Hk.
  transitivity (Csum n (fun i => Csum q (fun l => Csum m (fun j => f i j k l)))).
  { apply Csum_ext; intros. apply Csum_swap. }
  apply Csum_swap.
Qed.

Lemma Csum2_delta : forall n m k l f, (k < n)%nat -> (l < m)%nat ->
  Csum2 n m (fun i j => if Nat.eqb i k then (if Nat.eqb j l then f i j else 0)
                        else 0) = f k l.
Proof.
  intros. unfold Csum2.
  rewrite (Csum_ext n _ (fun i => if Nat.eqb i k then f i l else 0)).
  - rewrite (Csum_delta n k (fun i => f i l)) by assumption. reflexivity.
  - intros i Hi. destruct (Nat.eqb i k).
    + apply (Csum_delta m l (fun j => f i j)). assumption.
    + apply Csum_0.
Qed.

Lemma Rsum2_nonneg : forall n m f,
  (forall i j, (i < n)%nat -> (j < m)%nat -> (0 <= f i j)%R) ->
  (0 <= Rsum2 n m f)%R.
Proof. intros. apply Rsum_nonneg; intros. apply Rsum_nonneg; intros. auto. Qed.

Lemma Rsum2_zero_terms : forall n m f,
  (forall i j, (i < n)%nat -> (j < m)%nat -> (0 <= f i j)%R) ->
  Rsum2 n m f = 0%R ->
  forall i j, (i < n)%nat -> (j < m)%nat -> f i j = 0%R.
Proof.
  intros n m f H E i j Hi Hj.
  assert (E1 : Rsum m (fun j => f i j) = 0%R).
  { apply (Rsum_zero_terms n (fun i => Rsum m (fun j => f i j))); auto.
    intros. apply Rsum_nonneg; intros; auto. }
  apply (Rsum_zero_terms m (fun j => f i j)); auto.
Qed.

(** ** Roots of unity *)

Definition cis (t : R) : C := (cos t, sin t).

Lemma cis_plus : forall a b, cis (a + b)%R = cis a * cis b.
Proof.
  intros. unfold cis. rewrite cos_plus, sin_plus. apply C_eq; unfold Re, Im, Cmult; simpl; ring.
Qed.

Lemma cis_0 : cis 0 = 1.
Proof. unfold cis. rewrite cos_0, sin_0. reflexivity. Qed.

Lemma cis_conj : forall t, Cconj (cis t) = cis (- t).
Proof. intros. unfold cis. rewrite cos_neg, sin_neg. apply C_eq; unfold Re, Im, Cconj; simpl; ring. Qed.

Lemma cis_2PI_nat : forall n, cis (2 * PI * INR n)%R = 1.
Proof.
  intros. unfold cis.
  replace (2 * PI * INR n)%R with (0 + 2 * INR n * PI)%R by ring.
  rewrite cos_period, sin_period, cos_0, sin_0. reflexivity.
Qed.

(** [w N k x] = exp(2 pi i k x / N) *)
Definition w (N k x : nat) : C := cis (2 * PI * (INR k * INR x) / INR N)%R.

Lemma INR_pos : forall N, (0 < N)%nat -> (0 < INR N)%R.
Proof. intros. apply lt_0_INR. assumption. Qed.

Lemma w_period : forall N k x c d, (0 < N)%nat ->
  (k * x + c * N = d)%nat ->
  cis (2 * PI * INR d / INR N)%R = w N k x.
Proof.
  intros N k x c d H E. subst d. unfold w.
  pose proof (INR_pos N H).
  rewrite plus_INR, !mult_INR.
  replace (2 * PI * (INR k * INR x + INR c * INR N) / INR N)%R
    with (2 * PI * (INR k * INR x) / INR N + 2 * PI * INR c)%R by (field; lra).
  rewrite cis_plus, cis_2PI_nat. ring.
Qed.

Lemma w_sym : forall N k x, w N k x = w N x k.
Proof. intros. unfold w. f_equal. f_equal. f_equal. ring. Qed.

Lemma w_0_l : forall N x, w N 0 x = 1.
Proof.
  intros. unfold w. simpl. rewrite Rmult_0_l, Rmult_0_r.
  unfold Rdiv. rewrite Rmult_0_l. apply cis_0.
Qed.

Lemma w_0_r : forall N k, w N k 0 = 1.
Proof. intros. rewrite w_sym. apply w_0_l. Qed.

Lemma w_add_r : forall N k x y, w N k (x + y) = w N k x * w N k y.
Proof.
  intros. unfold w. rewrite <- cis_plus, plus_INR. f_equal.
  unfold Rdiv. ring.
Qed.

Lemma w_add_l : forall N k l x, w N (k + l) x = w N k x * w N l x.
Proof. intros. rewrite !(w_sym N _ x). apply w_add_r. Qed.

Lemma w_N_r : forall N k, (0 < N)%nat -> w N k N = 1.
Proof.
  intros. unfold w. pose proof (INR_pos N H).
  replace (2 * PI * (INR k * INR N) / INR N)%R with (2 * PI * INR k)%R
    by (field; lra).
  apply cis_2PI_nat.
Qed.

Lemma w_conj_mult : forall N k x, w N k x * Cconj (w N k x) = 1.
Proof.
  intros. unfold w. rewrite cis_conj, <- cis_plus, Rplus_opp_r. apply cis_0.
Qed.

Lemma w_mod_r : forall N k x, (0 < N)%nat -> w N k (x mod N) = w N k x.
Proof.
  intros N k x H. rewrite (Nat.div_mod x N) at 2 by lia.
  rewrite w_add_r.
  assert (E : forall c, w N k (N * c) = 1).
  { induction c. rewrite Nat.mul_0_r. apply w_0_r.
    rewrite Nat.mul_succ_r, w_add_r, IHc, w_N_r by assumption. ring. }
  rewrite E. ring.
Qed.

Lemma w_mod_l : forall N k x, (0 < N)%nat -> w N (k mod N) x = w N k x.
Proof. intros. rewrite !(w_sym N _ x). apply w_mod_r. assumption. Qed.

Lemma w_neg_r : forall N k x, (x <= N)%nat -> (0 < N)%nat ->
  w N k (neg N x) = Cconj (w N k x).
Proof.
  intros N k x Hx H. unfold neg. rewrite w_mod_r by assumption.
  assert (E : w N k (N - x) * w N k x = 1).
  { rewrite <- w_add_r. replace (N - x + x)%nat with N by lia.
    apply w_N_r. assumption. }
  transitivity (w N k (N - x) * (w N k x * Cconj (w N k x))).
  - rewrite w_conj_mult. ring.
  - rewrite Cmult_assoc, E. ring.
Qed.

Lemma w_neg_l : forall N k x, (k <= N)%nat -> (0 < N)%nat ->
  w N (neg N k) x = Cconj (w N k x).
Proof. intros. rewrite !(w_sym N _ x). apply w_neg_r; assumption. Qed.

Lemma w_neq_1 : forall N k, (0 < k < N)%nat -> w N k 1 <> 1.
Proof.
  intros N k H E. unfold w in E.
  set (t := (2 * PI * (INR k * INR 1) / INR N)%R) in *.
  assert (Hc : cos t = 1%R) by (apply (f_equal Re) in E; exact E).
  pose proof (INR_pos N ltac:(lia)) as HN.
  pose proof (INR_pos k ltac:(lia)) as Hk.
  assert (Hkn : (INR k < INR N)%R) by (apply lt_INR; lia).
  pose proof PI_RGT_0.
  assert (Ht : (t / 2 = PI * (INR k / INR N))%R).
  { unfold t. simpl INR at 2. field. lra. }
  assert (0 < INR k / INR N)%R by (apply Rdiv_lt_0_compat; assumption).
  assert (INR k / INR N < 1)%R.
  { apply (Rmult_lt_reg_r (INR N)); [assumption|].
    unfold Rdiv. rewrite Rmult_assoc, Rinv_l by lra. lra. }
  assert (0 < sin (t / 2))%R.
  { rewrite Ht. apply sin_gt_0; [apply Rmult_lt_0_compat; assumption|].
    rewrite <- (Rmult_1_r PI) at 2. apply Rmult_lt_compat_l; assumption. }
  assert (Hd : cos t = (1 - 2 * (sin (t / 2) * sin (t / 2)))%R).
  { replace t with (2 * (t / 2))%R at 1 by field. rewrite cos_2a_sin. ring. }
  assert (0 < sin (t / 2) * sin (t / 2))%R by (apply Rmult_lt_0_compat; assumption).
  lra.
Qed.

Lemma w_geom : forall N k, (0 < N)%nat ->
  (w N k 1 - 1) * Csum N (fun x => w N k x) = 0.
Proof.
  intros N k H.
  assert (E : w N k 1 * Csum N (fun x => w N k x) = Csum N (fun x => w N k x)).
  { rewrite <- Csum_scal.
    transitivity (Csum N (fun x => w N k ((x + 1) mod N)%nat)).
    - apply Csum_ext. intros. rewrite w_mod_r by assumption.
      rewrite w_add_r. ring.
    - apply (Csum_shift N 1 (fun x => w N k x)). assumption. }
  transitivity (w N k 1 * Csum N (fun x => w N k x)
                - Csum N (fun x => w N k x)); [ring|].
  rewrite E. ring.
Qed.

Lemma w_sum : forall N k, (0 < N)%nat -> (k < N)%nat ->
  Csum N (fun x => w N k x) = if Nat.eqb k 0 then RtoC (INR N) else 0.
Proof.
  intros N k H Hk. destruct (Nat.eqb_spec k 0) as [E|E].
  - subst. rewrite (Csum_ext N _ (fun _ => 1)).
    + rewrite Csum_const. ring.
    + intros. apply w_0_l.
  - pose proof (w_geom N k H) as G.
    pose proof (w_neq_1 N k ltac:(lia)) as Hn.
    assert (Hd : w N k 1 - 1 <> 0).
    { intro Z. apply Hn. replace (w N k 1) with (w N k 1 - 1 + 1) by ring.
      rewrite Z. ring. }
    transitivity (/ (w N k 1 - 1) * ((w N k 1 - 1) * Csum N (fun x => w N k x))).
    + rewrite Cmult_assoc, Cinv_l by assumption. ring.
    + rewrite G. ring.
Qed.

Lemma w_orth : forall N k l, (k < N)%nat -> (l < N)%nat ->
  Csum N (fun x => w N k x * Cconj (w N l x))
  = if Nat.eqb k l then RtoC (INR N) else 0.
Proof.
  intros N k l Hk Hl.
  assert (HN : (0 < N)%nat) by lia.
  transitivity (Csum N (fun x => w N ((k + neg N l) mod N) x)).
  - apply Csum_ext. intros. rewrite w_mod_l, w_add_l, w_neg_l by lia. reflexivity.
  - rewrite w_sum by (try assumption; apply Nat.mod_upper_bound; lia).
    assert (E : Nat.eqb ((k + neg N l) mod N) 0 = Nat.eqb k l).
    { destruct (Nat.eq_dec l 0) as [Z|Z].
      - subst. rewrite neg_0, Nat.add_0_r, Nat.mod_small by lia. reflexivity.
      - rewrite neg_pos by lia.
        destruct (Nat.eqb_spec k l) as [A|A].
        + subst. replace (l + (N - l))%nat with N by lia.
          rewrite Nat.mod_same by lia. reflexivity.
        + apply Nat.eqb_neq.
          destruct (le_lt_dec l k).
          * replace (k + (N - l))%nat with ((k - l) + 1 * N)%nat by lia.
            rewrite Nat.mod_add, Nat.mod_small by lia. lia.
          * rewrite Nat.mod_small by lia. lia. }
    rewrite E. reflexivity.
Qed.

(** ** Two-dimensional transforms *)

Definition field := nat -> nat -> R.
Definition spectrum := nat -> nat -> C.

Section Transform.
  Context (Nx Ny : nat).
  Hypothesis HNx : (0 < Nx)%nat.
  Hypothesis HNy : (0 < Ny)%nat.

  Definition phase (k l x y : nat) : C := w Nx k x * w Ny l y.

  Definition fftC (f : nat -> nat -> C) : spectrum := fun k l =>
    Csum2 Nx Ny (fun x y => f x y * Cconj (phase k l x y)).
  Definition fft2 (f : field) : spectrum := fftC (fun x y => RtoC (f x y)).
  Definition ifft2 (A : spectrum) : nat -> nat -> C := fun x y =>
    Csum2 Nx Ny (fun k l => A k l * phase k l x y).

  Definition npts : R := (INR Nx * INR Ny)%R.

  Lemma npts_pos : (0 < npts)%R.
  Proof. apply Rmult_lt_0_compat; apply INR_pos; assumption. Qed.

  Lemma npts_neq : RtoC npts <> 0.
  Proof. intro E. apply RtoC_inj in E. pose proof npts_pos. lra. Qed.

  Lemma phase_orth : forall k l k' l',
    (k < Nx)%nat -> (l < Ny)%nat -> (k' < Nx)%nat -> (l' < Ny)%nat ->
    Csum2 Nx Ny (fun x y => phase k l x y * Cconj (phase k' l' x y))
    = if Nat.eqb k k' then (if Nat.eqb l l' then RtoC npts else 0) else 0.
  Proof.
    intros. unfold phase.
    transitivity (Csum Nx (fun x => w Nx k x * Cconj (w Nx k' x))
                  * Csum Ny (fun y => w Ny l y * Cconj (w Ny l' y))).
    - unfold Csum2. rewrite <- Csum_scal_r. apply Csum_ext. intros x Hx.
      rewrite <- Csum_scal. apply Csum_ext. intros y Hy.
      rewrite Cconj_mult. ring.
    - rewrite !w_orth by assumption. unfold npts. rewrite RtoC_mult.
      destruct (Nat.eqb k k'), (Nat.eqb l l'); ring.
  Qed.

  Lemma phase_orth' : forall x y x' y',
    (x < Nx)%nat -> (y < Ny)%nat -> (x' < Nx)%nat -> (y' < Ny)%nat ->
    Csum2 Nx Ny (fun k l => phase k l x y * Cconj (phase k l x' y'))
    = if Nat.eqb x x' then (if Nat.eqb y y' then RtoC npts else 0) else 0.
  Proof.
    intros. rewrite <- phase_orth by assumption.
    apply Csum2_ext. intros. unfold phase.
    rewrite (w_sym Nx i x), (w_sym Nx i x'), (w_sym Ny j y), (w_sym Ny j y').
    reflexivity.
  Qed.

  Lemma fftC_ifft2 : forall A k l, (k < Nx)%nat -> (l < Ny)%nat ->
    fftC (ifft2 A) k l = RtoC npts * A k l.
  Proof.
    intros A k l Hk Hl. unfold fftC, ifft2.
    transitivity (Csum2 Nx Ny (fun x y => Csum2 Nx Ny (fun k' l' =>
       A k' l' * (phase k' l' x y * Cconj (phase k l x y))))).
    { apply Csum2_ext; intros. rewrite <- Csum2_scal_r. apply Csum2_ext; intros.
      ring. }
    rewrite Csum2_swap4.
    transitivity (Csum2 Nx Ny (fun k' l' =>
       if Nat.eqb k' k then (if Nat.eqb l' l then RtoC npts * A k' l' else 0) else 0)).
    { apply Csum2_ext; intros. rewrite Csum2_scal, phase_orth by assumption.
      destruct (Nat.eqb i k), (Nat.eqb j l); ring. }
    apply (Csum2_delta Nx Ny k l (fun k' l' => RtoC npts * A k' l')); assumption.
  Qed.

  Lemma ifft2_fftC : forall f x y, (x < Nx)%nat -> (y < Ny)%nat ->
    ifft2 (fftC f) x y = RtoC npts * f x y.
  Proof.
    intros f x y Hx Hy. unfold fftC, ifft2.
    transitivity (Csum2 Nx Ny (fun k l => Csum2 Nx Ny (fun x' y' =>
       f x' y' * (phase k l x y * Cconj (phase k l x' y'))))).
    { apply Csum2_ext; intros. rewrite <- Csum2_scal_r. apply Csum2_ext; intros.
      ring. }
    rewrite Csum2_swap4.
    transitivity (Csum2 Nx Ny (fun x' y' =>
       if Nat.eqb x' x then (if Nat.eqb y' y then RtoC npts * f x' y' else 0) else 0)).
    { apply Csum2_ext; intros. rewrite Csum2_scal, phase_orth' by assumption.
      rewrite (Nat.eqb_sym x), (Nat.eqb_sym y).
      destruct (Nat.eqb i x), (Nat.eqb j y); ring. }
    apply (Csum2_delta Nx Ny x y (fun x' y' => RtoC npts * f x' y')); assumption.
  Qed.

  Definition Herm (A : spectrum) : Prop := forall k l,
    (k < Nx)%nat -> (l < Ny)%nat -> A (neg Nx k) (neg Ny l) = Cconj (A k l).

  Lemma phase_neg : forall k l x y, (k < Nx)%nat -> (l < Ny)%nat ->
    phase (neg Nx k) (neg Ny l) x y = Cconj (phase k l x y).
  Proof.
    intros. unfold phase. rewrite !w_neg_l by lia. rewrite Cconj_mult. reflexivity.
  Qed.

  Lemma fft2_Herm : forall f, Herm (fft2 f).
  Proof.
    intros f k l Hk Hl. unfold fft2, fftC. rewrite Csum2_conj.
    apply Csum2_ext. intros. rewrite phase_neg by assumption.
    rewrite Cconj_mult, Cconj_RtoC. reflexivity.
  Qed.

  Lemma Csum2_neg : forall g,
    Csum2 Nx Ny (fun k l => g (neg Nx k) (neg Ny l)) = Csum2 Nx Ny g.
  Proof.
    intros. unfold Csum2.
    rewrite <- (Csum_neg Nx (fun k => Csum Ny (fun l => g k l))) by assumption.
    apply Csum_ext. intros. apply (Csum_neg Ny (fun l => g (neg Nx i) l)).
    assumption.
  Qed.

  Lemma ifft2_real : forall A x y, Herm A -> Im (ifft2 A x y) = 0%R.
  Proof.
    intros A x y HA.
    assert (E : Cconj (ifft2 A x y) = ifft2 A x y).
    { unfold ifft2 at 1. rewrite Csum2_conj. unfold ifft2.
      rewrite <- (Csum2_neg (fun k l => A k l * phase k l x y)).
      apply Csum2_ext. intros. rewrite HA, phase_neg, Cconj_mult by assumption.
      reflexivity. }
    apply (f_equal Im) in E. rewrite Im_conj in E. lra.
  Qed.

  (** *** Half-complex inverse transform

      Weight of row [k] of a half-complex array: rows 0 and (for even Nx)
      Nx/2 are their own mirror image and count once. *)
  Definition wt (k : nat) : R :=
    if orb (Nat.eqb k 0) (Nat.eqb (2 * k) Nx) then 1%R else 2%R.

  Lemma half_sum : forall r : nat -> R,
    (forall k, (0 < k < Nx)%nat -> r (Nx - k)%nat = r k) ->
    Rsum Nx r = Rsum (Nx / 2 + 1) (fun k => (wt k * r k)%R).
  Proof.
    intros r Hr. set (h := (Nx / 2)%nat).
    assert (Hh : (2 * h <= Nx < 2 * h + 2)%nat).
    { unfold h. pose proof (Nat.div_mod Nx 2 ltac:(lia)).
      pose proof (Nat.mod_upper_bound Nx 2 ltac:(lia)). lia. }
    clearbody h.
    assert (E : Rsum Nx r = (Rsum (h + 1) r
              + Rsum (Nx - h - 1) (fun i => r (1 + i)%nat))%R).
    { replace Nx with ((h + 1) + (Nx - h - 1))%nat at 1 by lia.
      rewrite Rsum_split. f_equal. rewrite !Rsum_Re. f_equal.
      rewrite (Csum_rev _ (fun i => RtoC (r (1 + i)%nat))).
      apply Csum_ext. intros i Hi. f_equal.
      rewrite <- (Hr (h + 1 + i)%nat) by lia. f_equal. lia. }
    rewrite E. replace (h + 1)%nat with (1 + h)%nat by lia.
    rewrite !Rsum_split. cbn [Rsum].
    replace (wt 0) with 1%R by reflexivity.
    destruct (Nat.eq_dec Nx (2 * h)) as [Ev|Od].
    - destruct h as [|h']; [lia|].
      replace (Nx - S h' - 1)%nat with h' by lia. cbn [Rsum].
      rewrite (Rsum_ext h' (fun i => (wt (1 + i) * r (1 + i)%nat)%R)
                 (fun i => (2 * r (1 + i)%nat)%R)).
      + rewrite Rsum_scal.
        replace (wt (1 + h')) with 1%R; [ring|].
        unfold wt. destruct (Nat.eqb_spec (1 + h') 0); [lia|].
        destruct (Nat.eqb_spec (2 * (1 + h')) Nx); [reflexivity|lia].
      + intros i Hi. f_equal. unfold wt.
        destruct (Nat.eqb_spec (1 + i) 0); [lia|].
        destruct (Nat.eqb_spec (2 * (1 + i)) Nx); [lia|reflexivity].
    - replace (Nx - h - 1)%nat with h by lia.
      rewrite (Rsum_ext h (fun i => (wt (1 + i) * r (1 + i)%nat)%R)
                 (fun i => (2 * r (1 + i)%nat)%R)).
      + rewrite Rsum_scal. ring.
      + intros i Hi. f_equal. unfold wt.
        destruct (Nat.eqb_spec (1 + i) 0); [lia|].
        destruct (Nat.eqb_spec (2 * (1 + i)) Nx); [lia|reflexivity].
  Qed.

  Definition irfft2 (A : spectrum) : field := fun x y =>
    Rsum (Nx / 2 + 1) (fun k =>
      (wt k * Re (Csum Ny (fun l => (A k l * phase k l x y)%C)))%R).

  Lemma irfft2_ext : forall A B x y,
    (forall k l, (k <= Nx / 2)%nat -> (l < Ny)%nat -> A k l = B k l) ->
    irfft2 A x y = irfft2 B x y.
  Proof.
    clear HNx HNy. intros. unfold irfft2. apply Rsum_ext. intros k Hk. f_equal. f_equal.
    apply Csum_ext. intros. rewrite H by lia. reflexivity.
  Qed.

  Lemma irfft2_ifft2 : forall A x y, Herm A ->
    irfft2 A x y = Re (ifft2 A x y).
  Proof.
    intros A x y HA. unfold ifft2. unfold Csum2. rewrite Csum_Re.
    rewrite (half_sum (fun k => Re (Csum Ny (fun l => A k l * phase k l x y)))).
    - reflexivity.
    - intros k Hk. rewrite <- neg_pos by assumption.
      rewrite <- (Csum_neg Ny (fun l => A (neg Nx k) l * phase (neg Nx k) l x y))
        by assumption.
      rewrite <- Re_conj, Csum_conj. f_equal. apply Csum_ext. intros l Hl.
      rewrite HA, phase_neg, Cconj_mult, !Cconj_invol by lia. reflexivity.
  Qed.

  Lemma fft2_irfft2 : forall A k l, Herm A -> (k < Nx)%nat -> (l < Ny)%nat ->
    fft2 (irfft2 A) k l = RtoC npts * A k l.
  Proof.
    intros A k l HA Hk Hl. rewrite <- fftC_ifft2 by assumption.
    unfold fft2, fftC. apply Csum2_ext. intros. f_equal.
    apply C_eq.
    - rewrite Re_RtoC. apply irfft2_ifft2. assumption.
    - rewrite Im_RtoC, ifft2_real by assumption. reflexivity.
  Qed.

  Lemma irfft2_fft2 : forall f x y, (x < Nx)%nat -> (y < Ny)%nat ->
    irfft2 (fft2 f) x y = (npts * f x y)%R.
  Proof.
    intros. rewrite irfft2_ifft2 by apply fft2_Herm.
    unfold fft2. rewrite ifft2_fftC by assumption.
    rewrite Re_scal. reflexivity.
  Qed.

  Lemma fft2_ext : forall f g k l,
    (forall x y, (x < Nx)%nat -> (y < Ny)%nat -> f x y = g x y) ->
    fft2 f k l = fft2 g k l.
  Proof. intros. apply Csum2_ext. intros. rewrite H by assumption. reflexivity. Qed.

  Lemma fft2_inj : forall f g,
    (forall k l, (k < Nx)%nat -> (l < Ny)%nat -> fft2 f k l = fft2 g k l) ->
    forall x y, (x < Nx)%nat -> (y < Ny)%nat -> f x y = g x y.
  Proof.
    intros f g H x y Hx Hy. pose proof npts_pos.
    apply (Rmult_eq_reg_l npts); [|lra].
    rewrite <- !irfft2_fft2 by assumption.
    apply irfft2_ext. intros. apply H; [|assumption].
    assert (Nx / 2 < Nx)%nat by (apply Nat.div_lt; lia). lia.
  Qed.

  Lemma fft2_lin : forall a b f g k l,
    fft2 (fun x y => (a * f x y + b * g x y)%R) k l
    = RtoC a * fft2 f k l + RtoC b * fft2 g k l.
  Proof.
    intros. unfold fft2, fftC. rewrite <- !Csum2_scal, <- Csum2_plus.
    apply Csum2_ext. intros. rewrite RtoC_plus, !RtoC_mult. ring.
  Qed.

  Lemma fft2_opp : forall f k l,
    fft2 (fun x y => (- f x y)%R) k l = - fft2 f k l.
  Proof.
    intros. transitivity (fft2 (fun x y => (-1 * f x y + 0 * f x y)%R) k l).
    - apply fft2_ext. intros. ring.
    - rewrite fft2_lin. replace (RtoC (-1)) with (- RtoC 1) by (rewrite <- RtoC_opp; f_equal; lra). ring.
  Qed.

  Lemma fft2_scal : forall a f k l,
    fft2 (fun x y => (a * f x y)%R) k l = RtoC a * fft2 f k l.
  Proof.
    intros. transitivity (fft2 (fun x y => (a * f x y + 0 * f x y)%R) k l).
    - apply fft2_ext. intros. ring.
    - rewrite fft2_lin. ring.
  Qed.

  Lemma plancherel : forall f g,
    RtoC (npts * Rsum2 Nx Ny (fun x y => (f x y * g x y)%R))
    = Csum2 Nx Ny (fun k l => fft2 f k l * Cconj (fft2 g k l)).
  Proof.
    intros. symmetry.
    transitivity (Csum2 Nx Ny (fun k l => Csum2 Nx Ny (fun x y =>
       RtoC (g x y) * (fft2 f k l * phase k l x y)))).
    { apply Csum2_ext; intros. unfold fft2 at 2, fftC.
      rewrite Csum2_conj, <- Csum2_scal.
      apply Csum2_ext; intros. rewrite Cconj_mult, Cconj_RtoC, Cconj_invol. ring. }
    rewrite Csum2_swap4, RtoC_mult, Csum2_RtoC, <- Csum2_scal.
    apply Csum2_ext. intros x y Hx Hy. rewrite Csum2_scal.
    fold (ifft2 (fft2 f) x y). unfold fft2. rewrite ifft2_fftC by assumption.
    rewrite RtoC_mult. ring.
  Qed.

  (** Real scalar product from the half-complex spectrum. *)
  Lemma half_plancherel : forall f g,
    (npts * Rsum2 Nx Ny (fun x y => (f x y * g x y)%R))%R
    = Rsum (Nx / 2 + 1) (fun k => (wt k *
        Rsum Ny (fun l => Re (Cconj (fft2 f k l) * fft2 g k l)%C))%R).
  Proof.
    intros.
    transitivity (Rsum Nx (fun k => Rsum Ny (fun l =>
       Re (Cconj (fft2 f k l) * fft2 g k l)))).
    - rewrite <- (Re_RtoC (npts * _)), plancherel, Csum2_Re.
      apply Rsum2_ext. intros. unfold Re, Cmult, Cconj. simpl. ring.
    - apply (half_sum (fun k => Rsum Ny (fun l =>
         Re (Cconj (fft2 f k l) * fft2 g k l)))).
      intros k Hk. rewrite <- neg_pos by assumption.
      rewrite <- (Rsum_neg Ny (fun l => Re (Cconj (fft2 f (neg Nx k) l)
         * fft2 g (neg Nx k) l))) by assumption.
      apply Rsum_ext. intros l Hl. rewrite !fft2_Herm by lia.
      rewrite <- Cconj_mult, Re_conj. reflexivity.
  Qed.

  (** *** Circular convolution *)
  Definition circ (K f : field) : field := fun x y =>
    Rsum2 Nx Ny (fun x' y' =>
      (K ((x + neg Nx x') mod Nx)%nat ((y + neg Ny y') mod Ny)%nat * f x' y')%R).

  Lemma Csum2_shift : forall a b g,
    Csum2 Nx Ny (fun x y => g ((x + a) mod Nx)%nat ((y + b) mod Ny)%nat)
    = Csum2 Nx Ny g.
  Proof.
    intros. unfold Csum2.
    rewrite <- (Csum_shift Nx a (fun x => Csum Ny (fun y => g x y))) by assumption.
    apply Csum_ext. intros.
    apply (Csum_shift Ny b (fun y => g ((i + a) mod Nx)%nat y)). assumption.
  Qed.

  Lemma fft2_shift : forall f a b k l, 
    fft2 (fun x y => f ((x + a) mod Nx)%nat ((y + b) mod Ny)%nat) k l
    = phase k l a b * fft2 f k l.
  Proof.
    intros. unfold fft2, fftC. rewrite <- Csum2_scal.
    rewrite <- (Csum2_shift a b (fun x y =>
       phase k l a b * (RtoC (f x y) * Cconj (phase k l x y)))).
    apply Csum2_ext. intros x y Hx Hy.
    unfold phase. rewrite !w_mod_r by assumption. rewrite !w_add_r.
    rewrite !Cconj_mult.
    transitivity (RtoC (f ((x + a) mod Nx)%nat ((y + b) mod Ny)%nat)
      * (Cconj (w Nx k x) * Cconj (w Ny l y))
      * (w Nx k a * Cconj (w Nx k a)) * (w Ny l b * Cconj (w Ny l b))).
    - rewrite !w_conj_mult. ring.
    - ring.
  Qed.

  Lemma fft2_circ : forall K f k l,
    fft2 (circ K f) k l = fft2 K k l * fft2 f k l.
  Proof.
    intros K f k l. unfold fft2 at 1, fftC, circ.
    transitivity (Csum2 Nx Ny (fun x y => Csum2 Nx Ny (fun x' y' =>
      RtoC (f x' y') * (RtoC (K ((x + neg Nx x') mod Nx)%nat
                        ((y + neg Ny y') mod Ny)%nat) * Cconj (phase k l x y))))).
    { apply Csum2_ext; intros. rewrite Csum2_RtoC, <- Csum2_scal_r.
      apply Csum2_ext; intros. rewrite RtoC_mult. ring. }
    rewrite Csum2_swap4.
    unfold fft2 at 2, fftC. rewrite <- Csum2_scal.
    apply Csum2_ext. intros x' y' Hx' Hy'. rewrite Csum2_scal.
    fold (fftC (fun x y => RtoC (K ((x + neg Nx x') mod Nx)%nat
                        ((y + neg Ny y') mod Ny)%nat)) k l).
    change (fftC (fun x y => RtoC (K ((x + neg Nx x') mod Nx)%nat
                        ((y + neg Ny y') mod Ny)%nat)) k l)
      with (fft2 (fun x y => K ((x + neg Nx x') mod Nx)%nat
                        ((y + neg Ny y') mod Ny)%nat) k l).
    rewrite fft2_shift. unfold phase. rewrite !w_neg_r by lia.
    rewrite Cconj_mult. ring.
  Qed.

  (** Fourier multiplier with symbol [G]. *)
  Definition mult (G : spectrum) (f : field) : field := fun x y =>
    (irfft2 (fun k l => (G k l * fft2 f k l)%C) x y / npts)%R.

  Lemma Herm_mult : forall G A, Herm G -> Herm A ->
    Herm (fun k l => G k l * A k l).
  Proof.
    intros G A HG HA k l Hk Hl. rewrite HG, HA by assumption.
    rewrite Cconj_mult. reflexivity.
  Qed.

  Lemma fft2_mult : forall G f k l, Herm G -> (k < Nx)%nat -> (l < Ny)%nat ->
    fft2 (mult G f) k l = G k l * fft2 f k l.
  Proof.
    intros G f k l HG Hk Hl.
    transitivity (fft2 (fun x y => (/ npts * irfft2 (fun k l => (G k l * fft2 f k l)%C) x y)%R) k l).
    - apply fft2_ext. intros. unfold mult, Rdiv. ring.
    - rewrite fft2_scal, fft2_irfft2; try assumption.
      + rewrite Cmult_assoc, <- RtoC_mult, Rinv_l.
        * ring.
        * pose proof npts_pos. lra.
      + apply Herm_mult; [assumption|apply fft2_Herm].
  Qed.

  Lemma mult_ext : forall G f g x y,
    (forall x y, (x < Nx)%nat -> (y < Ny)%nat -> f x y = g x y) ->
    mult G f x y = mult G g x y.
  Proof.
    intros. unfold mult. f_equal. apply irfft2_ext. intros. f_equal.
    apply fft2_ext. assumption.
  Qed.

  Lemma mult_ext_G : forall G H f x y,
    (forall k l, (k <= Nx / 2)%nat -> (l < Ny)%nat -> G k l = H k l) ->
    mult G f x y = mult H f x y.
  Proof.
    intros. unfold mult. f_equal. apply irfft2_ext. intros. rewrite H0 by assumption.
    reflexivity.
  Qed.

  (** A multiplier whose symbol is the transform of a kernel is a circular
      convolution. *)
  Lemma mult_circ : forall K f x y, (x < Nx)%nat -> (y < Ny)%nat ->
    mult (fft2 K) f x y = circ K f x y.
  Proof.
    intros K f. apply fft2_inj. intros.
    rewrite fft2_mult, fft2_circ by (try assumption; apply fft2_Herm). reflexivity.
  Qed.

  Lemma mult_comp : forall G H f x y, Herm G -> Herm H ->
    (x < Nx)%nat -> (y < Ny)%nat ->
    mult G (mult H f) x y = mult (fun k l => G k l * H k l) f x y.
  Proof.
    intros G H f x y HG HH. revert x y. apply fft2_inj. intros.
    rewrite !fft2_mult; try assumption.
    - ring.
    - apply Herm_mult; assumption.
  Qed.

  Lemma mult_1 : forall f x y, (x < Nx)%nat -> (y < Ny)%nat ->
    mult (fun _ _ => 1) f x y = f x y.
  Proof.
    intros f. apply fft2_inj. intros. rewrite fft2_mult; try assumption.
    - ring.
    - intros a b _ _. rewrite Cconj_RtoC. reflexivity.
  Qed.

  Lemma mult_lin : forall G a b f g x y, Herm G ->
    (x < Nx)%nat -> (y < Ny)%nat ->
    mult G (fun x y => (a * f x y + b * g x y)%R) x y
    = (a * mult G f x y + b * mult G g x y)%R.
  Proof.
    intros G a b f g x y HG. revert x y.
    apply (fft2_inj (mult G (fun x y => (a * f x y + b * g x y)%R))
             (fun x y => (a * mult G f x y + b * mult G g x y)%R)).
    intros. rewrite fft2_lin, !fft2_mult, fft2_lin by assumption. ring.
  Qed.

  Definition shift (a b : nat) (f : field) : field := fun x y =>
    f ((x + a) mod Nx)%nat ((y + b) mod Ny)%nat.

  Lemma mult_shift : forall G f a b x y, Herm G ->
    (x < Nx)%nat -> (y < Ny)%nat ->
    mult G (shift a b f) x y = shift a b (mult G f) x y.
  Proof.
    intros G f a b x y HG. revert x y.
    apply (fft2_inj (mult G (shift a b f)) (shift a b (mult G f))).
    intros. unfold shift. rewrite fft2_mult by assumption.
    rewrite fft2_shift. rewrite (fft2_shift (mult G f)), fft2_mult by assumption. ring.
  Qed.

  Definition dot (f g : field) : R := Rsum2 Nx Ny (fun x y => (f x y * g x y)%R).

  Lemma dot_comm : forall f g, dot f g = dot g f.
  Proof. intros. apply Rsum2_ext. intros. ring. Qed.

  Lemma mult_adjoint : forall G f g, Herm G ->
    (forall k l, (k < Nx)%nat -> (l < Ny)%nat -> Cconj (G k l) = G k l) ->
    dot f (mult G g) = dot g (mult G f).
  Proof.
    intros G f g HG HR. pose proof npts_pos.
    apply (Rmult_eq_reg_l npts); [|lra]. apply RtoC_inj.
    rewrite (dot_comm g). unfold dot. rewrite !plancherel.
    apply Csum2_ext. intros. rewrite !fft2_mult by assumption.
    rewrite Cconj_mult, HR by assumption. ring.
  Qed.

  Lemma dot_mult : forall G f, Herm G ->
    (npts * dot f (mult G f))%R
    = Rsum2 Nx Ny (fun k l => (Re (G k l) * (Cmod (fft2 f k l)) ^ 2)%R).
  Proof.
    intros G f HG. rewrite <- (Re_RtoC (npts * _)). unfold dot.
    rewrite plancherel, Csum2_Re. apply Rsum2_ext. intros k l Hk Hl.
    rewrite fft2_mult by assumption.
    rewrite Cconj_mult.
    set (a := fft2 f k l). set (g := G k l).
    unfold Cmod. rewrite pow2_sqrt.
    - unfold Re, Cmult, Cconj. simpl. ring.
    - assert (0 <= fst a ^ 2)%R by apply pow2_ge_0.
      assert (0 <= snd a ^ 2)%R by apply pow2_ge_0. lra.
  Qed.

  Lemma fft2_00 : forall f, fft2 f 0%nat 0%nat = RtoC (Rsum2 Nx Ny f).
  Proof.
    intros. unfold fft2, fftC. rewrite Csum2_RtoC. apply Csum2_ext. intros.
    unfold phase. rewrite !w_0_l. rewrite Cmult_1_l, Cconj_RtoC. ring.
  Qed.

  Lemma mult_sum : forall G f, Herm G ->
    Rsum2 Nx Ny (mult G f) = (Re (G 0%nat 0%nat) * Rsum2 Nx Ny f)%R.
  Proof.
    intros G f HG.
    rewrite <- (Re_RtoC (Rsum2 Nx Ny (mult G f))), <- fft2_00, fft2_mult by assumption.
    rewrite fft2_00, Re_scal_r. reflexivity.
  Qed.

  (** Plane waves are eigenvectors. *)
  Definition wave (p q : nat) (phi : R) : field := fun x y =>
    cos (2 * PI * (INR p * INR x / INR Nx + INR q * INR y / INR Ny) + phi).

  Lemma wave_phase : forall p q phi x y,
    wave p q phi x y = Re (cis phi * phase p q x y).
  Proof.
    intros. unfold phase, w. rewrite <- !cis_plus. unfold wave, cis, Re. simpl.
    f_equal. unfold Rdiv. ring.
  Qed.

  Lemma fft2_wave : forall p q phi k l,
    (p < Nx)%nat -> (q < Ny)%nat -> (k < Nx)%nat -> (l < Ny)%nat ->
    fft2 (wave p q phi) k l
    = RtoC (npts / 2) *
      ((if andb (Nat.eqb k p) (Nat.eqb l q) then cis phi else 0)
       + (if andb (Nat.eqb k (neg Nx p)) (Nat.eqb l (neg Ny q))
          then Cconj (cis phi) else 0)).
  Proof.
    intros p q phi k l Hp Hq Hk Hl.
    assert (E : forall a : C, RtoC (Re a) = RtoC (1/2) * (a + Cconj a)).
    { intros. apply C_eq; unfold Re, Im, Cmult, Cplus, Cconj, RtoC; simpl; field. }
    unfold fft2, fftC.
    transitivity (RtoC (1/2) * (cis phi *
        Csum2 Nx Ny (fun x y => phase p q x y * Cconj (phase k l x y))
      + Cconj (cis phi) *
        Csum2 Nx Ny (fun x y => phase (neg Nx p) (neg Ny q) x y * Cconj (phase k l x y)))).
    - rewrite <- !Csum2_scal, <- Csum2_plus, <- Csum2_scal. apply Csum2_ext.
      intros x y Hx Hy. rewrite wave_phase, E, Cconj_mult.
      rewrite phase_neg by assumption. ring.
    - rewrite !phase_orth by (try assumption; apply neg_lt; assumption).
      rewrite (Nat.eqb_sym p), (Nat.eqb_sym q), (Nat.eqb_sym (neg Nx p)),
        (Nat.eqb_sym (neg Ny q)).
      replace (RtoC (npts / 2)) with (RtoC (1/2) * RtoC npts).
      2:{ rewrite <- RtoC_mult. f_equal. field. }
      destruct (Nat.eqb k p), (Nat.eqb l q), (Nat.eqb k (neg Nx p)),
        (Nat.eqb l (neg Ny q)); simpl; ring.
  Qed.

  Lemma mult_wave : forall G p q phi x y, Herm G ->
    (p < Nx)%nat -> (q < Ny)%nat -> (x < Nx)%nat -> (y < Ny)%nat ->
    Cconj (G p q) = G p q ->
    mult G (wave p q phi) x y = (Re (G p q) * wave p q phi x y)%R.
  Proof.
    intros G p q phi x y HG Hp Hq Hx Hy HR. revert x y Hx Hy.
    apply (fft2_inj (mult G (wave p q phi)) (fun x y => (Re (G p q) * wave p q phi x y)%R)).
    intros k l Hk Hl. rewrite fft2_scal, fft2_mult, !fft2_wave by assumption.
    assert (ER : RtoC (Re (G p q)) = G p q).
    { apply C_eq; [reflexivity|]. rewrite Im_RtoC.
      apply (f_equal Im) in HR. rewrite Im_conj in HR. lra. }
    rewrite ER.
    set (A := if (Nat.eqb k p && Nat.eqb l q)%bool then cis phi else 0).
    set (B := if (Nat.eqb k (neg Nx p) && Nat.eqb l (neg Ny q))%bool
              then Cconj (cis phi) else 0).
    assert (EA : G k l * A = G p q * A).
    { unfold A. destruct (Nat.eqb_spec k p), (Nat.eqb_spec l q); simpl; subst; ring. }
    assert (EB : G k l * B = G p q * B).
    { unfold B. destruct (Nat.eqb_spec k (neg Nx p)), (Nat.eqb_spec l (neg Ny q));
        simpl; subst; try ring.
      rewrite HG, HR by assumption. ring. }
    transitivity (RtoC (npts / 2) * (G k l * A + G k l * B)); [ring|].
    rewrite EA, EB. ring.
  Qed.

End Transform.
