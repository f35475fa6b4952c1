(** * The elastic constants of the anisotropic Green's function *)

From Coq Require Import Reals ZArith Lra Lia Psatz.
From Coquelicot Require Import Coquelicot.
From Verif Require Import Py Isotropic_Proofs Elasticity_Spec Anisotropic_Spec Anisotropic_Model.
Local Open Scope R_scope.

Ltac idx H := destruct (lt3 _ H) as [?E|[?E|?E]]; subst.

Lemma c_init_cubic : forall C11 C12 C44 i j k l, (i < 3)%nat -> (j < 3)%nat -> (k < 3)%nat -> (l < 3)%nat ->
  elasticity_tensor (c_init C11 C12 C44) i j k l = cubic C11 C12 C44 i j k l.
Proof.
  intros C11 C12 C44 i j k l Hi Hj Hk Hl. idx Hi; idx Hj; idx Hk; idx Hl;
    unfold elasticity_tensor, voigt, c_init, cubic, kron, sum3s; cbn [Nat.eqb Nat.ltb Nat.leb andb Nat.sub]; ring.
Qed.

Section Rot.
  Variables C11 C12 C44 : R.
  Variable Rm : rmat.
  Definition T0 := einsum_rot Rm (elasticity_tensor (c_init C11 C12 C44)).
  Definition PP (i j : nat) : R := sum3 (fun a => Rm i a * Rm j a).

  (** The rotated tensor in closed form, for any matrix. *)
  Lemma T_closed : forall i j k l, T0 i j k l =
    C12 * PP i j * PP k l + C44 * (PP i k * PP j l + PP i l * PP j k)
    + (C11 - C12 - 2 * C44) * sum3 (fun a => Rm i a * Rm j a * Rm k a * Rm l a).
  Proof.
    intros i j k l. unfold T0, einsum_rot, sum3, elasticity_tensor, voigt, c_init, PP, sum3.
    cbn [Nat.eqb Nat.ltb Nat.leb andb Nat.sub]. ring.
  Qed.
  Lemma PP_sym : forall i j, PP i j = PP j i.
  Proof. intros. unfold PP, sum3. ring. Qed.
  Lemma T_minor1 : forall i j k l, T0 i j k l = T0 j i k l.
  Proof. intros. rewrite !T_closed. unfold PP, sum3. ring. Qed.
  Lemma T_minor2 : forall i j k l, T0 i j k l = T0 i j l k.
  Proof. intros. rewrite !T_closed. unfold PP, sum3. ring. Qed.
  Lemma T_major : forall i j k l, T0 i j k l = T0 k l i j.
  Proof. intros. rewrite !T_closed. unfold PP, sum3. ring. Qed.

  Lemma voigt_pair : forall i j, (i < 3)%nat -> (j < 3)%nat -> tensor_ij (voigt i j) = (i, j) \/ tensor_ij (voigt i j) = (j, i).
  Proof. intros i j Hi Hj. idx Hi; idx Hj; cbn; tauto. Qed.
  Lemma voigt_lossless : forall i j k l, (i < 3)%nat -> (j < 3)%nat -> (k < 3)%nat -> (l < 3)%nat ->
    voigt_from_tensor T0 (voigt i j) (voigt k l) = T0 i j k l.
  Proof.
    intros i j k l Hi Hj Hk Hl. unfold voigt_from_tensor.
    destruct (voigt_pair i j Hi Hj) as [E|E]; rewrite E; destruct (voigt_pair k l Hk Hl) as [E'|E']; rewrite E'.
    - reflexivity.
    - apply T_minor2.
    - apply T_minor1.
    - rewrite T_minor1. apply T_minor2.
  Qed.
  Lemma aniso_tensor : forall ints Cm, aniso_new ints C11 C12 C44 Rm = Ret Cm ->
    forall i j k l, (i < 3)%nat -> (j < 3)%nat -> (k < 3)%nat -> (l < 3)%nat ->
    elasticity_tensor Cm i j k l = stored ints (T0 i j k l).
  Proof.
    intros ints Cm H i j k l Hi Hj Hk Hl. unfold aniso_new in H. destruct (Rle_dec _ _) as [L|L]; [|discriminate].
    injection H as H. subst Cm. unfold elasticity_tensor at 1. fold T0. rewrite voigt_lossless by assumption. reflexivity.
  Qed.
  Lemma T_rotated : forall i j k l, T0 i j k l = rotated Rm (cubic C11 C12 C44) i j k l.
  Proof.
    intros i j k l. rewrite T_closed. unfold rotated, cubic, kron, sum3s, PP, sum3.
    cbn [Nat.eqb]. ring.
  Qed.

  Lemma voigt_lt : forall i j, (i < 3)%nat -> (j < 3)%nat -> (voigt i j < 6)%nat.
  Proof. intros i j Hi Hj. idx Hi; idx Hj; cbn; lia. Qed.
End Rot.

(** Two matrices of elastic constants give the same tensor iff the used entries agree. *)
Lemma tensor_of_voigt : forall (A : rmat) a b, (a < 6)%nat -> (b < 6)%nat ->
  exists i j k l, (i < 3)%nat /\ (j < 3)%nat /\ (k < 3)%nat /\ (l < 3)%nat /\ elasticity_tensor A i j k l = A a b.
Proof.
  intros A a b Ha Hb.
  assert (V : forall a, (a < 6)%nat -> exists i j, (i < 3)%nat /\ (j < 3)%nat /\ voigt i j = a).
  { intros c Hc. destruct c as [|[|[|[|[|[|c]]]]]]; [exists 0%nat, 0%nat|exists 1%nat, 1%nat|exists 2%nat, 2%nat|exists 1%nat, 2%nat|exists 0%nat, 2%nat|exists 0%nat, 1%nat|lia];
      cbn; repeat split; lia. }
  destruct (V a Ha) as [i [j [Hi [Hj E]]]]. destruct (V b Hb) as [k [l [Hk [Hl E']]]].
  exists i, j, k, l. repeat split; try assumption. unfold elasticity_tensor. rewrite E, E'. reflexivity.
Qed.

(** ** Energy and acoustic tensor *)
Section Energy.
  Variables C11 C12 C44 : R.
  Hypothesis H44 : 0 < C44.
  Hypothesis H1 : 0 < C11 - C12.
  Hypothesis H2 : 0 < C11 + 2 * C12.
  Variable Rm : rmat.
  Hypothesis Horth : orthogonal Rm.
  Variables v q : nat -> R.

  (** Vectors in the axes of the crystal. *)
  Let V (a : nat) : R := sum3 (fun i => v i * Rm i a).
  Let Q (a : nat) : R := sum3 (fun i => q i * Rm i a).

  Definition acoustic_form : R :=
    sum3 (fun i => sum3 (fun j => sum3 (fun k => sum3 (fun l => T0 C11 C12 C44 Rm i j k l * v i * q j * q k * v l)))).
  Lemma acoustic_crystal : acoustic_form =
    C12 * (sum3 (fun a => V a * Q a)) ^ 2
    + C44 * ((sum3 (fun a => V a * Q a)) ^ 2 + sum3 (fun a => V a * V a) * sum3 (fun a => Q a * Q a))
    + (C11 - C12 - 2 * C44) * sum3 (fun a => (V a * Q a) ^ 2).
  Proof.
    unfold acoustic_form.
    transitivity (sum3 (fun i => sum3 (fun j => sum3 (fun k => sum3 (fun l =>
      (C12 * PP Rm i j * PP Rm k l + C44 * (PP Rm i k * PP Rm j l + PP Rm i l * PP Rm j k)
       + (C11 - C12 - 2 * C44) * sum3 (fun a => Rm i a * Rm j a * Rm k a * Rm l a)) * v i * q j * q k * v l))))).
    { unfold sum3 at 1 2 3 4 5 6 7 8. rewrite !T_closed. reflexivity. }
    unfold PP, V, Q, sum3. ring.
  Qed.

  Lemma norm_V : forall w, sum3 (fun a => sum3 (fun i => w i * Rm i a) * sum3 (fun i => w i * Rm i a)) = sum3 (fun i => w i * w i).
  Proof.
    intros w. transitivity (sum3 (fun i => sum3 (fun j => w i * w j * PP Rm i j))).
    - unfold PP, sum3. ring.
    - assert (P : forall i j, (i < 3)%nat -> (j < 3)%nat -> PP Rm i j = kron i j) by exact Horth.
      unfold sum3. rewrite !P by lia. unfold kron. cbn [Nat.eqb]. ring.
  Qed.

  (** A longitudinal or transverse wave always carries energy. *)
  Lemma acoustic_definite : acoustic_form = 0 -> sum3 (fun i => v i * v i) * sum3 (fun i => q i * q i) = 0.
  Proof.
    rewrite acoustic_crystal, <- (norm_V v), <- (norm_V q). fold (V 0%nat) (Q 0%nat).
    change (sum3 (fun a => sum3 (fun i => v i * Rm i a) * sum3 (fun i => v i * Rm i a))) with (sum3 (fun a => V a * V a)).
    change (sum3 (fun a => sum3 (fun i => q i * Rm i a) * sum3 (fun i => q i * Rm i a))) with (sum3 (fun a => Q a * Q a)).
    unfold sum3. generalize (V 0%nat) (V 1%nat) (V 2%nat) (Q 0%nat) (Q 1%nat) (Q 2%nat).
    intros a b c x y z H.
    assert (E : C44 * ((a * y + b * x) ^ 2 + (a * z + c * x) ^ 2 + (b * z + c * y) ^ 2)
      + (C11 - C12) * (((a * x - b * y) ^ 2 + (a * x - c * z) ^ 2 + (b * y - c * z) ^ 2) / 3)
      + (C11 + 2 * C12) * ((a * x + b * y + c * z) ^ 2 / 3) = 0).
    { rewrite <- H. field. }
    assert (S3 : forall p r s, 0 <= p ^ 2 + r ^ 2 + s ^ 2) by (intros; nra).
    assert (A1 := S3 (a * y + b * x) (a * z + c * x) (b * z + c * y)).
    assert (A2 := S3 (a * x - b * y) (a * x - c * z) (b * y - c * z)).
    assert (A3 := pow2_ge_0 (a * x + b * y + c * z)).
    assert (B1 := Rmult_le_pos _ _ (Rlt_le _ _ H44) A1).
    assert (B2 : 0 <= (C11 - C12) * (((a * x - b * y) ^ 2 + (a * x - c * z) ^ 2 + (b * y - c * z) ^ 2) / 3)) by (apply Rmult_le_pos; lra).
    assert (B3 : 0 <= (C11 + 2 * C12) * ((a * x + b * y + c * z) ^ 2 / 3)) by (apply Rmult_le_pos; lra).
    assert (Z1 : (a * y + b * x) ^ 2 + (a * z + c * x) ^ 2 + (b * z + c * y) ^ 2 = 0) by (apply (Rmult_eq_reg_l C44); lra).
    assert (Z2 : (a * x - b * y) ^ 2 + (a * x - c * z) ^ 2 + (b * y - c * z) ^ 2 = 0).
    { assert (W : ((a * x - b * y) ^ 2 + (a * x - c * z) ^ 2 + (b * y - c * z) ^ 2) / 3 = 0) by (apply (Rmult_eq_reg_l (C11 - C12)); lra). lra. }
    assert (Z3 : (a * x + b * y + c * z) ^ 2 = 0).
    { assert (W : (a * x + b * y + c * z) ^ 2 / 3 = 0) by (apply (Rmult_eq_reg_l (C11 + 2 * C12)); lra). lra. }
    assert (K : (a * a + b * b + c * c) * (x * x + y * y + z * z) =
      ((a * y + b * x) ^ 2 + (a * z + c * x) ^ 2 + (b * z + c * y) ^ 2)
      + 2 / 3 * ((a * x - b * y) ^ 2 + (a * x - c * z) ^ 2 + (b * y - c * z) ^ 2) - 1 / 3 * (a * x + b * y + c * z) ^ 2) by field.
    rewrite K, Z1, Z2, Z3. lra.
  Qed.
End Energy.
