(** * Symmetries of the grid and Fourier multipliers

    Translations of a periodic grid, mirror images and the exchange of the two
    axes: what they do to the transform of a field, and when two multipliers
    commute with them. *)
From Coq Require Import Reals Lia Lra List Arith Bool.
From Coquelicot Require Import Complex Coquelicot.
From Verif Require Import FFT_Base HalfSpace_Spec HalfSpace_Results3 Motion_Spec.
From Coq Require Import List.
Import ListNotations.
Local Open Scope R_scope.

(** [s] maps the [n'] x [m'] grid onto the [n] x [m] grid, point by point. *)
Record bijective (n m n' m' : nat) (s : nat -> nat -> nat * nat) : Prop := mkBij {
  bi_in : forall x y, (x < n')%nat -> (y < m')%nat -> (fst (s x y) < n)%nat /\ (snd (s x y) < m)%nat;
  bi_inj : forall x y x' y', (x < n')%nat -> (y < m')%nat -> (x' < n')%nat -> (y' < m')%nat ->
    s x y = s x' y' -> x = x' /\ y = y';
  bi_onto : forall x y, (x < n)%nat -> (y < m)%nat ->
    exists x' y', (x' < n')%nat /\ (y' < m')%nat /\ s x' y' = (x, y) }.

(** The transform follows the map [s] of points by the map [t] of waves. *)
Record follows (n m n' m' : nat) (s t : nat -> nat -> nat * nat) (chi : spectrum) : Prop := mkFol {
  fo_in : forall x y, (x < n')%nat -> (y < m')%nat -> (fst (t x y) < n)%nat /\ (snd (t x y) < m)%nat;
  fo_fft : forall f k l, (k < n')%nat -> (l < m')%nat ->
    fft2 n' m' (through s f) k l = (chi k l * through t (fft2 n m f) k l)%C }.

Lemma mult_follows : forall n m n' m' s t chi (G G' : spectrum) c c' k r f x y,
  (0 < n)%nat -> (0 < m)%nat -> (0 < n')%nat -> (0 < m')%nat ->
  bijective n m n' m' s -> follows n m n' m' s t chi -> Herm n m G -> Herm n' m' G' ->
  (forall p q, (p < n')%nat -> (q < m')%nat ->
     (RtoC (c' * k) * G' p q = RtoC (r * c) * through t G p q)%C) ->
  (x < n')%nat -> (y < m')%nat ->
  c' * mult n' m' G' (fun x y => k * through s f x y) x y = r * (c * through s (mult n m G f) x y).
Proof.
  intros n m n' m' s t chi G G' c c' k r f x y P1 P2 P1' P2' B F H H' E. revert x y.
  apply (fft2_inj n' m' P1' P2' (fun x y => c' * mult n' m' G' (fun x y => k * through s f x y) x y)
           (fun x y => r * (c * through s (mult n m G f) x y))).
  intros p q Hp Hq.
  rewrite fft2_scal, fft2_mult, fft2_scal, (fo_fft _ _ _ _ _ _ _ F) by assumption.
  rewrite (fft2_scal _ _ r (fun x y => c * through s (mult n m G f) x y)), fft2_scal, (fo_fft _ _ _ _ _ _ _ F) by assumption.
  destruct (fo_in _ _ _ _ _ _ _ F p q Hp Hq) as [T1 T2].
  specialize (E p q Hp Hq). unfold through in *. rewrite fft2_mult by assumption.
  rewrite !RtoC_mult in E.
  set (Z := fft2 n m f _ _) in *. set (g := G _ _) in *. set (X := chi p q) in *.
  transitivity (RtoC c' * RtoC k * G' p q * (X * Z))%C; [ring|]. rewrite E. ring.
Qed.

(** ** Translation *)
Definition shifted (n m i j x y : nat) : nat * nat := (((x + i) mod n)%nat, ((y + j) mod m)%nat).

Lemma mod_shift_inj : forall n i x x', (x < n)%nat -> (x' < n)%nat -> ((x + i) mod n = (x' + i) mod n)%nat -> x = x'.
Proof.
  assert (K : forall n i x x', (x <= x')%nat -> (x' < n)%nat -> ((x + i) mod n = (x' + i) mod n)%nat -> x = x').
  { intros n i x x' L H E. assert (N : n <> 0%nat) by lia.
    pose proof (Nat.div_mod (x + i) n N). pose proof (Nat.div_mod (x' + i) n N).
    rewrite E in H0. set (a := ((x + i) / n)%nat) in *. set (b := ((x' + i) / n)%nat) in *.
    assert (a = b \/ a + 1 <= b \/ b + 1 <= a)%nat as [D|[D|D]] by lia; [subst a; nia| |]; nia. }
  intros n i x x' H H' E. destruct (Nat.le_ge_cases x x'); [apply (K n i)|symmetry; apply (K n i)]; auto.
Qed.
Lemma mod_shift_onto : forall n i x, (x < n)%nat -> exists x', (x' < n)%nat /\ ((x' + i) mod n = x)%nat.
Proof.
  intros n i x H. exists ((x + (n - i mod n)) mod n)%nat. split; [apply Nat.mod_upper_bound; lia|].
  rewrite Nat.add_mod_idemp_l by lia. rewrite <- Nat.add_mod_idemp_r by lia.
  assert (i mod n < n)%nat by (apply Nat.mod_upper_bound; lia).
  replace (x + (n - i mod n) + i mod n)%nat with (x + 1 * n)%nat by lia.
  rewrite Nat.mod_add by lia. apply Nat.mod_small. exact H.
Qed.

Lemma shifted_bijective : forall n m i j, (0 < n)%nat -> (0 < m)%nat -> bijective n m n m (shifted n m i j).
Proof.
  intros n m i j P1 P2. constructor; unfold shifted.
  - intros x y _ _. split; apply Nat.mod_upper_bound; lia.
  - intros x y x' y' H1 H2 H3 H4 E. injection E as E1 E2. split; eapply mod_shift_inj; eassumption.
  - intros x y H1 H2. destruct (mod_shift_onto n i x H1) as (x' & X1 & X2).
    destruct (mod_shift_onto m j y H2) as (y' & Y1 & Y2). exists x', y'. rewrite X2, Y2. auto.
Qed.
Lemma shifted_follows : forall n m i j, (0 < n)%nat -> (0 < m)%nat ->
  follows n m n m (shifted n m i j) (fun k l => (k, l)) (fun k l => phase n m k l i j).
Proof.
  intros n m i j P1 P2. constructor; unfold through, shifted; cbn [fst snd].
  - auto.
  - intros f k l Hk Hl. apply fft2_shift; assumption.
Qed.

(** ** Mirror image along the first axis: [x] goes to [r - x] modulo [n]. *)
Definition mirrored (n r x y : nat) : nat * nat := (((r + neg n x) mod n)%nat, y).

Lemma mirror_mirror : forall n r x, (x < n)%nat -> ((r + neg n ((r + neg n x) mod n)) mod n = x)%nat.
Proof.
  intros n r x H. assert (N : n <> 0%nat) by lia.
  set (u := ((r + neg n x) mod n)%nat). assert (U : (u < n)%nat) by (apply Nat.mod_upper_bound; lia).
  assert (A : ((u + x) mod n = r mod n)%nat).
  { unfold u. rewrite Nat.add_mod_idemp_l by exact N.
    assert (K : exists c, (neg n x + x = c * n)%nat).
    { unfold neg. destruct (Nat.eq_dec x 0) as [->|X].
      - rewrite Nat.sub_0_r, Nat.mod_same by exact N. exists 0%nat. lia.
      - rewrite Nat.mod_small by lia. exists 1%nat. lia. }
    destruct K as [c K]. replace (r + neg n x + x)%nat with (r + c * n)%nat by lia. apply Nat.mod_add. exact N. }
  assert (K : exists c, (neg n u + u = c * n)%nat).
  { unfold neg. destruct (Nat.eq_dec u 0) as [->|X].
    - rewrite Nat.sub_0_r, Nat.mod_same by exact N. exists 0%nat. lia.
    - rewrite Nat.mod_small by lia. exists 1%nat. lia. }
  destruct K as [c K]. rewrite Nat.add_mod, <- A, <- Nat.add_mod by exact N.
  replace (u + x + neg n u)%nat with (x + c * n)%nat by lia. rewrite Nat.mod_add by exact N. apply Nat.mod_small. exact H.
Qed.

Lemma mirrored_bijective : forall n m r, (0 < n)%nat -> bijective n m n m (mirrored n r).
Proof.
  intros n m r P. constructor; unfold mirrored; cbn [fst snd].
  - intros x y _ H. split; [apply Nat.mod_upper_bound; lia|exact H].
  - intros x y x' y' H1 _ H3 _ E. injection E as E1 E2. split; [|exact E2].
    rewrite <- (mirror_mirror n r x H1), E1. apply mirror_mirror. exact H3.
  - intros x y H1 H2. exists ((r + neg n x) mod n)%nat, y.
    split; [apply Nat.mod_upper_bound; lia|]. split; [exact H2|]. rewrite mirror_mirror by exact H1. reflexivity.
Qed.

Lemma mirrored_inside : forall n x y, (x < n)%nat -> mirrored n (n - 1) x y = ((n - 1 - x)%nat, y).
Proof.
  intros n x y H. unfold mirrored, neg. f_equal. destruct (Nat.eq_dec x 0) as [->|X].
  - rewrite Nat.sub_0_r, Nat.mod_same by lia. rewrite Nat.add_0_r, Nat.mod_small; lia.
  - rewrite (Nat.mod_small (n - x)) by lia.
    replace (n - 1 + (n - x))%nat with (n - 1 - x + 1 * n)%nat by lia. rewrite Nat.mod_add by lia. apply Nat.mod_small. lia.
Qed.
(** On the doubled grid, the lower half is mapped onto itself. *)
Lemma mirrored_doubled : forall n x y, (x < n)%nat -> mirrored (2 * n) (n - 1) x y = ((n - 1 - x)%nat, y).
Proof.
  intros n x y H. unfold mirrored, neg. f_equal. destruct (Nat.eq_dec x 0) as [->|X].
  - rewrite Nat.sub_0_r, Nat.mod_same by lia. rewrite Nat.add_0_r, Nat.mod_small; lia.
  - rewrite (Nat.mod_small (2 * n - x)) by lia.
    replace (n - 1 + (2 * n - x))%nat with (n - 1 - x + 1 * (2 * n))%nat by lia. rewrite Nat.mod_add by lia. apply Nat.mod_small. lia.
Qed.
Lemma mirrored_upper : forall n x y, (n <= x < 2 * n)%nat -> (n <= fst (mirrored (2 * n) (n - 1) x y))%nat.
Proof.
  intros n x y H. unfold mirrored, neg. cbn [fst]. rewrite (Nat.mod_small (2 * n - x)) by lia. rewrite Nat.mod_small by lia. lia.
Qed.

Lemma mirrored_follows : forall n m r, (0 < n)%nat -> (0 < m)%nat ->
  follows n m n m (mirrored n r) (fun k l => (neg n k, l)) (fun k l => Cconj (w n k r)).
Proof.
  intros n m r P1 P2. constructor; unfold through, mirrored; cbn [fst snd].
  - intros x y Hx Hy. split; [apply neg_lt; exact P1|exact Hy].
  - intros f k l Hk Hl. unfold fft2, fftC, Csum2.
    rewrite <- Csum_scal.
    transitivity (Csum n (fun x => Csum m (fun y =>
      (RtoC (f ((x + r) mod n)%nat y) * Cconj (phase n m k l (neg n x) y))%C))).
    { rewrite <- (Csum_neg n (fun x => Csum m (fun y => (RtoC (f ((r + neg n x) mod n)%nat y) * Cconj (phase n m k l x y))%C))) by exact P1.
      apply Csum_ext. intros x Hx. apply Csum_ext. intros y Hy. rewrite neg_neg by exact Hx. rewrite Nat.add_comm. reflexivity. }
    rewrite <- (Csum_shift n r (fun x => (Cconj (w n k r) * Csum m (fun y => RtoC (f x y) * Cconj (phase n m (neg n k) l x y)))%C)) by exact P1.
    apply Csum_ext. intros x Hx. rewrite <- Csum_scal. apply Csum_ext. intros y Hy. unfold phase.
    rewrite !Cconj_mult. rewrite w_neg_r by lia. rewrite (w_mod_r n (neg n k)) by lia.
    rewrite w_add_r. assert (W : forall x, w n (neg n k) x = Cconj (w n k x)).
    { intros z. rewrite (w_sym n (neg n k) z), w_neg_r, (w_sym n z k) by lia. reflexivity. }
    rewrite !W, !Cconj_mult, !Cconj_invol.
    transitivity (RtoC (f ((x + r) mod n)%nat y) * (w n k x * Cconj (w m l y)) * (w n k r * Cconj (w n k r)))%C; [|ring].
    rewrite w_conj_mult. ring.
Qed.

(** ** Exchange of the axes *)
Definition exchanged (x y : nat) : nat * nat := (y, x).

Lemma exchanged_bijective : forall n m, bijective n m m n exchanged.
Proof.
  intros n m. constructor; unfold exchanged; cbn [fst snd].
  - auto.
  - intros x y x' y' _ _ _ _ E. injection E as E1 E2. auto.
  - intros x y H1 H2. exists y, x. auto.
Qed.
Lemma exchanged_follows : forall n m, follows n m m n exchanged exchanged (fun _ _ => RtoC 1).
Proof.
  intros n m. constructor; unfold through, exchanged; cbn [fst snd].
  - auto.
  - intros f k l Hk Hl. rewrite Cmult_1_l. exact (fft2_transpose n m f l k).
Qed.
