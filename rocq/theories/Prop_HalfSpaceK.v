(** * C95: the Fourier-space evaluators of the half-space

    [evaluate_k_disp], [evaluate_k_force] and [evaluate_k_force_k]
    (FFTElasticHalfSpace.py, lines 613-674) return the unnormalised discrete
    Fourier transforms [fft2] of what [evaluate_disp] and [evaluate_force]
    return.  The arrays hold the frequencies [0 .. n/2] of the first direction. *)
From Coq Require Import Reals ZArith Lra Lia List Arith Bool.
From Coquelicot Require Import Complex Coquelicot.
From Verif Require Import Py FFT_Base HalfSpace_Model HalfSpace_Spec HalfSpace_Proofs HalfSpace_Results HalfSpace_Results2
  HalfSpace_Witness Prop_HalfSpace.
From Coq Require Import List.
Import ListNotations.
Local Open Scope R_scope.

(** A frequency that is stored. *)
Definition stored (g : list nat) (k l : nat) : Prop := (k <= Nat.div (gx g) 2)%nat /\ (l < gy g)%nat.
Definition transform (a : args) (f : arr) : spectrum := fft2 (gx (a_grid a)) (gy (a_grid a)) (a_val f).

Lemma stored_lt g k l : (0 < gx g)%nat -> stored g k l -> (k < gx g)%nat.
Proof. intros H [A _]. assert (Nat.div (gx g) 2 < gx g)%nat by (apply Nat.div_lt; lia). lia. Qed.

Theorem C95_disp : forall a s f, construct a = Ret s -> pos_args a -> a_shape f = a_grid a ->
  exists u uk, evaluate_disp s f = Ret u /\ evaluate_k_disp s f = Ret uk /\
    forall k l, stored (a_grid a) k l -> uk k l = transform a u k l.
Proof.
  intros a s f H Hp E. destruct (disp_multiplier a s H) as (P1&P2&HH&_&D). destruct (D f E) as (u&U1&_&U2).
  assert (SH : shape_eqb (a_shape f) (h_grid (s_hs s)) = true).
  { unfold evaluate_disp in U1. destruct (shape_eqb (a_shape f) (h_grid (s_hs s))); [reflexivity|discriminate]. }
  eexists u, _. split; [exact U1|]. split; [unfold evaluate_k_disp; rewrite SH; reflexivity|].
  intros k l ST. pose proof (stored_lt _ k l P1 ST) as Hk. destruct ST as [_ Hl]. cbv zeta beta.
  unfold transform.
  rewrite (fft2_ext _ _ (a_val u) (fun x y => - / area_per_pt (s_hs s) * mult (gx (a_grid a)) (gy (a_grid a)) (GF s) (a_val f) x y))
    by (intros x y Hx Hy; apply U2; split; assumption).
  rewrite fft2_scal, fft2_mult by assumption.
  rewrite (nx_gx a s H), (ny_gy a s H).
  rewrite (fft2_ext _ _ (fun x y => - a_val f x y) (fun x y => -1 * a_val f x y)) by (intros; ring).
  rewrite fft2_scal. unfold GF, Cdiv. rewrite <- RtoC_inv by (apply Rgt_not_eq; destruct (construct_inv _ s H) as [N _]; exact (area_pos _ _ N Hp)).
  rewrite !RtoC_opp. replace (RtoC (-1)) with (- RtoC 1)%C by (rewrite <- RtoC_opp; f_equal; lra). ring.
Qed.
Print Assumptions C95_disp.

Theorem C95_force : forall a s u, construct a = Ret s -> a_shape u = a_grid a ->
  exists f fk, evaluate_force s u = Ret f /\ evaluate_k_force s u = Ret fk /\
    forall k l, stored (a_grid a) k l -> fk k l = transform a f k l.
Proof.
  intros a s u H E. destruct (force_multiplier a s H) as (P1&P2&HH&_&D). destruct (D u E) as (f&F1&_&F2).
  assert (SH : shape_eqb (a_shape u) (h_grid (s_hs s)) = true).
  { unfold evaluate_force in F1. destruct (shape_eqb (a_shape u) (h_grid (s_hs s))); [reflexivity|discriminate]. }
  eexists f, _. split; [exact F1|]. split; [unfold evaluate_k_force; rewrite SH; reflexivity|].
  intros k l ST. pose proof (stored_lt _ k l P1 ST) as Hk. destruct ST as [_ Hl].
  unfold transform.
  rewrite (fft2_ext _ _ (a_val f) (fun x y => - area_per_pt (s_hs s) * mult (gx (a_grid a)) (gy (a_grid a)) (SS s) (a_val u) x y))
    by (intros x y Hx Hy; apply F2; split; assumption).
  rewrite fft2_scal, fft2_mult by assumption.
  unfold evaluate_k_force_k. rewrite (nx_gx a s H), (ny_gy a s H). unfold SS. rewrite !RtoC_opp. ring.
Qed.
Print Assumptions C95_force.

(** From the transform of a displacement [evaluate_k_force_k] computes the
    transform of its force. *)
Theorem C95_force_k : forall a s u, construct a = Ret s -> a_shape u = a_grid a ->
  exists f, evaluate_force s u = Ret f /\
    forall k l, stored (a_grid a) k l -> evaluate_k_force_k s (transform a u) k l = transform a f k l.
Proof.
  intros a s u H E. destruct (C95_force a s u H E) as (f&fk&F1&F2&F3). exists f. split; [exact F1|].
  intros k l ST. rewrite <- F3 by exact ST. unfold evaluate_k_force in F2.
  destruct (negb _); [discriminate|]. injection F2 as <-. unfold transform. rewrite (nx_gx a s H), (ny_gy a s H). reflexivity.
Qed.
Print Assumptions C95_force_k.

(** An array of another shape is refused by both. *)
Theorem C95_shape : forall a s f, construct a = Ret s -> a_shape f <> a_grid a ->
  evaluate_k_disp s f = Exc SubstrateError /\ evaluate_k_force s f = Exc SubstrateError.
Proof.
  intros a s f H E. unfold evaluate_k_disp, evaluate_k_force.
  assert (SH : shape_eqb (a_shape f) (h_grid (s_hs s)) = false).
  { rewrite (hs_grid a s H). destruct (shape_eqb (a_shape f) (a_grid a)) eqn:X; [|reflexivity].
    apply shape_eqb_spec in X. contradiction. }
  rewrite SH. split; reflexivity.
Qed.
Print Assumptions C95_shape.

(** Forces from displacements from forces in Fourier space: the transform of the
    forces, if the half-space has a stiffness against uniform displacement. *)
Theorem C95_inverse : forall a s f, construct a = Ret s -> pos_args a -> a_shape f = a_grid a -> a_q0 a <> Some 0 ->
  exists uk, evaluate_k_disp s f = Ret uk /\
    forall k l, stored (a_grid a) k l -> evaluate_k_force_k s uk k l = transform a f k l.
Proof.
  intros a s f H Hp E Hq.
  destruct (C95_disp a s f H Hp E) as (u&uk&U1&U2&U3). exists uk. split; [exact U2|].
  destruct (C20_inverse a s (a_val f) H Hp Hq) as [(u'&f'&V1&V2&V3) _].
  assert (EF : mkArr (a_grid a) (a_val f) = f) by (rewrite <- E; destruct f; reflexivity).
  rewrite EF, U1 in V1. injection V1 as <-.
  assert (SU : a_shape u = a_grid a).
  { destruct (disp_multiplier a s H) as (_&_&_&_&D). destruct (D f E) as (u2&W1&W2&_). congruence. }
  destruct (C95_force_k a s u H SU) as (f2&W1&W2). rewrite V2 in W1. injection W1 as <-.
  intros k l ST. transitivity (evaluate_k_force_k s (transform a u) k l).
  - unfold evaluate_k_force_k. rewrite (U3 k l ST). reflexivity.
  - rewrite (W2 k l ST). unfold transform. apply fft2_ext. intros x y Hx Hy. apply V3. split; assumption.
Qed.
Print Assumptions C95_inverse.

(** Non-vacuity: a 4 x 3 half-space; three of the four frequencies of the first
    direction are stored. *)
Example C95_nonvacuous : (exists s, construct hsA = Ret s) /\ pos_args hsA /\ a_q0 hsA <> Some 0 /\
  a_shape (mkArr [4; 3]%nat (fun x y => INR (x + 2 * y))) = a_grid hsA /\
  stored (a_grid hsA) 2 2 /\ ~ stored (a_grid hsA) 3 0 /\ [3; 4]%nat <> a_grid hsA.
Proof.
  refine (conj hsA_ok (conj hsA_pos (conj _ (conj eq_refl (conj _ (conj _ _)))))).
  - exact (proj2 (proj2 (proj1 C20_nonvacuous))).
  - split; cbn; lia.
  - intros [A _]. cbn in A. lia.
  - discriminate.
Qed.
