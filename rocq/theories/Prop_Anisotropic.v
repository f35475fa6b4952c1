(** * C63: the anisotropic surface Green's function

    The library functions [np.linalg.solve], [np.roots] and [null_space] are
    arbitrary: a solution of [solve] solves the equations and exists for regular
    matrices only ([solve_ok]), a single vector of [null_space] spans the kernel
    ([null_ok]), a cubic has at most three roots ([roots_short]), which are roots
    ([roots_ok]). *)

From Coq Require Import Reals ZArith Lra Lia Psatz Bool FunctionalExtensionality.
From Coquelicot Require Import Coquelicot.
From Verif Require Import Py FFT_Base GreenwoodTripp_Model GreenwoodTripp_Proofs Isotropic_Proofs Elasticity_Spec Anisotropic_Spec
  Anisotropic_Model Anisotropic_Tensor Anisotropic_Field Anisotropic_Proofs Anisotropic_Theory Anisotropic_Betti Anisotropic_Main
  Anisotropic_Kernel Anisotropic_Example Anisotropic_Rotated.
From Coq Require Import List.
Import ListNotations.
Local Open Scope R_scope.

(** ** Elastic constants *)

(** The stored constants are those of the cubic crystal in the rotated axes, for
    every matrix that is accepted, and have the symmetries of elastic
    constants. *)
Theorem C63_rotation : forall C11 C12 C44 Rm Cm, aniso_new false C11 C12 C44 Rm = Ret Cm ->
  (forall i j k l, (i < 3)%nat -> (j < 3)%nat -> (k < 3)%nat -> (l < 3)%nat ->
    elasticity_tensor Cm i j k l = rotated Rm (cubic C11 C12 C44) i j k l /\
    elasticity_tensor Cm i j k l = elasticity_tensor Cm j i k l /\
    elasticity_tensor Cm i j k l = elasticity_tensor Cm i j l k /\
    elasticity_tensor Cm i j k l = elasticity_tensor Cm k l i j) /\
  (forall a b, (a < 6)%nat -> (b < 6)%nat -> Cm a b = Cm b a).
Proof.
  intros C11 C12 C44 Rm Cm H.
  assert (E := fun i j k l => Cm_T0 C11 C12 C44 Rm Cm H i j k l).
  split.
  - intros i j k l Hi Hj Hk Hl. rewrite !E by assumption. repeat split.
    + apply T_rotated.
    + apply T_minor1.
    + apply T_minor2.
    + apply T_major.
  - intros a b Ha Hb. destruct (tensor_of_voigt Cm a b Ha Hb) as (i & j & k & l & Hi & Hj & Hk & Hl & Eab).
    assert (V : forall c, (c < 6)%nat -> voigt (fst (tensor_ij c)) (snd (tensor_ij c)) = c /\ (fst (tensor_ij c) < 3)%nat /\ (snd (tensor_ij c) < 3)%nat).
    { intros c Hc. destruct c as [|[|[|[|[|[|c]]]]]]; cbn; repeat split; lia. }
    destruct (V a Ha) as (Va & A1 & A2). destruct (V b Hb) as (Vb & B1 & B2).
    assert (X := Cm_major C11 C12 C44 Rm Cm H _ _ _ _ A1 A2 B1 B2). unfold elasticity_tensor in X. rewrite Va, Vb in X. exact X.
Qed.
Print Assumptions C63_rotation.

(** Rotations that map the crystal on itself (signed permutations of the axes),
    and every rotation of an isotropic solid, leave the constants alone. *)
Theorem C63_invariance : forall C11 C12 C44 Rm Cm, aniso_new false C11 C12 C44 Rm = Ret Cm -> orthogonal Rm ->
  (forall i, (i < 3)%nat -> exists p, (p < 3)%nat /\ forall a, (a < 3)%nat -> a <> p -> Rm i a = 0) \/ C11 - C12 = 2 * C44 ->
  forall i j k l, (i < 3)%nat -> (j < 3)%nat -> (k < 3)%nat -> (l < 3)%nat ->
    elasticity_tensor Cm i j k l = cubic C11 C12 C44 i j k l.
Proof.
  intros C11 C12 C44 Rm Cm H O Hyp i j k l Hi Hj Hk Hl. rewrite (Cm_T0 C11 C12 C44 Rm Cm H) by assumption. rewrite T_closed.
  assert (P : forall i j, (i < 3)%nat -> (j < 3)%nat -> PP Rm i j = kron i j) by exact O.
  rewrite !P by assumption. unfold cubic. destruct Hyp as [S|I].
  - f_equal. f_equal.
    assert (SG : forall i, (i < 3)%nat -> exists p e, (p < 3)%nat /\ e * e = 1 /\ forall a, (a < 3)%nat -> Rm i a = e * kron p a).
    { intros m Hm. destruct (S m Hm) as (p & Hp & Z). assert (A : forall a, (a < 3)%nat -> Rm m a = Rm m p * kron p a).
      { intros a Ha. unfold kron. destruct (Nat.eqb_spec p a) as [->|N]; [ring|]. rewrite (Z a Ha) by congruence. ring. }
      revert A. generalize (Rm m p). intros e A. exists p, e. split; [exact Hp|]. split; [|exact A]. assert (Q := O m m Hm Hm). unfold sum3s in Q. rewrite !A in Q by lia.
      unfold kron in Q at 7. rewrite Nat.eqb_refl in Q. rewrite <- Q. idx Hp; unfold kron; cbn [Nat.eqb]; ring. }
    destruct (SG i Hi) as (p1 & e1 & Hp1 & E1 & R1). destruct (SG j Hj) as (p2 & e2 & Hp2 & E2 & R2).
    destruct (SG k Hk) as (p3 & e3 & Hp3 & E3 & R3). destruct (SG l Hl) as (p4 & e4 & Hp4 & E4 & R4).
    assert (I2 : forall m n p q e f, (m < 3)%nat -> (n < 3)%nat -> (p < 3)%nat -> (q < 3)%nat -> e * e = 1 -> f * f = 1 ->
      (forall a, (a < 3)%nat -> Rm m a = e * kron p a) -> (forall a, (a < 3)%nat -> Rm n a = f * kron q a) ->
      (m = n /\ p = q /\ e = f) \/ (m <> n /\ p <> q)).
    { intros m n p q e f Hm Hn Hp Hq Ee Ef Am An. assert (Q := O m n Hm Hn). unfold sum3s in Q. rewrite !Am, !An in Q by lia.
      unfold kron in Q at 7. destruct (Nat.eqb_spec m n) as [->|N].
      - left. split; [reflexivity|]. idx Hp; idx Hq; unfold kron in Q; cbn [Nat.eqb] in Q; split; try reflexivity; nra.
      - right. split; [exact N|]. intros ->. idx Hq; unfold kron in Q; cbn [Nat.eqb] in Q; nra. }
    unfold sum3, sum3s. rewrite !R1, !R2, !R3, !R4 by lia.
    destruct (I2 i j p1 p2 e1 e2 Hi Hj Hp1 Hp2 E1 E2 R1 R2) as [(-> & -> & ->)|(N & N')].
    + destruct (I2 j k p2 p3 e2 e3 Hj Hk Hp2 Hp3 E2 E3 R2 R3) as [(-> & -> & ->)|(N & N')].
      * destruct (I2 k l p3 p4 e3 e4 Hk Hl Hp3 Hp4 E3 E4 R3 R4) as [(-> & -> & ->)|(N & N')].
        -- transitivity (1 : R).
           ++ idx Hp4; unfold kron; cbn [Nat.eqb]; nra.
           ++ idx Hl; unfold kron; cbn [Nat.eqb]; ring.
        -- transitivity (0 : R).
           ++ idx Hp3; idx Hp4; try (exfalso; apply N'; reflexivity); unfold kron; cbn [Nat.eqb]; ring.
           ++ idx Hk; idx Hl; try (exfalso; apply N; reflexivity); unfold kron; cbn [Nat.eqb]; ring.
      * transitivity (0 : R).
        -- idx Hp2; idx Hp3; try (exfalso; apply N'; reflexivity); unfold kron; cbn [Nat.eqb]; ring.
        -- idx Hj; idx Hk; try (exfalso; apply N; reflexivity); unfold kron; cbn [Nat.eqb]; ring.
    + transitivity (0 : R).
      * idx Hp1; idx Hp2; try (exfalso; apply N'; reflexivity); unfold kron; cbn [Nat.eqb]; ring.
      * idx Hi; idx Hj; try (exfalso; apply N; reflexivity); unfold kron; cbn [Nat.eqb]; ring.
  - replace (C11 - C12 - 2 * C44) with 0 by lra. ring.
Qed.
Print Assumptions C63_invariance.

(** A matrix is accepted iff its determinant is 1 up to the tolerances of
    [np.isclose]; reflections are a ValueError. *)
Lemma accepts_det : forall ints C11 C12 C44 Rm,
  ((exists Cm, aniso_new ints C11 C12 C44 Rm = Ret Cm) <-> Rabs (rdet3 Rm - 1) <= / 10 ^ 8 + / 10 ^ 5) /\
  (rdet3 Rm = -1 -> aniso_new ints C11 C12 C44 Rm = Exc ValueErr).
Proof.
  intros. unfold aniso_new. rewrite Rabs_R1, Rmult_1_r. destruct (Rle_dec _ _) as [L|L]; split.
  - split; intros; [exact L|eauto].
  - intros E. exfalso. rewrite E in L. rewrite Rabs_left in L by lra.
    assert (/ 10 ^ 8 < 1) by (rewrite <- Rinv_1; apply Rinv_lt_contravar; lra).
    assert (/ 10 ^ 5 < 1) by (rewrite <- Rinv_1; apply Rinv_lt_contravar; lra). lra.
  - split; [intros [Cm X]; discriminate|contradiction].
  - reflexivity.
Qed.

(** The same with the volume spanned by the rows. *)
Lemma det_volume : forall Rm, rdet3 Rm = volume Rm.
Proof. intros. unfold rdet3, volume, sum3s, cross3. ring. Qed.
Theorem C63_accepts : forall ints C11 C12 C44 Rm,
  ((exists Cm, aniso_new ints C11 C12 C44 Rm = Ret Cm) <-> Rabs (volume Rm - 1) <= / 10 ^ 8 + / 10 ^ 5) /\
  (volume Rm = -1 -> aniso_new ints C11 C12 C44 Rm = Exc ValueErr).
Proof. intros. rewrite <- det_volume. apply accepts_det. Qed.
Print Assumptions C63_accepts.

(** Of the orthogonal matrices the right handed ones are accepted, the others
    are a ValueError. *)
Theorem C63_handedness : forall ints C11 C12 C44 Rm, orthogonal Rm ->
  (right_handed Rm /\ exists Cm, aniso_new ints C11 C12 C44 Rm = Ret Cm)
  \/ (left_handed Rm /\ aniso_new ints C11 C12 C44 Rm = Exc ValueErr).
Proof.
  intros ints C11 C12 C44 Rm O.
  assert (O' : forall i j, (i < 3)%nat -> (j < 3)%nat -> sum3s (fun k => Rm i k * Rm j k) = kron i j) by exact O.
  pose proof (O' 0%nat 0%nat ltac:(lia) ltac:(lia)) as Q00. pose proof (O' 1%nat 1%nat ltac:(lia) ltac:(lia)) as Q11.
  pose proof (O' 2%nat 2%nat ltac:(lia) ltac:(lia)) as Q22. pose proof (O' 0%nat 1%nat ltac:(lia) ltac:(lia)) as Q01.
  pose proof (O' 0%nat 2%nat ltac:(lia) ltac:(lia)) as Q02. pose proof (O' 1%nat 2%nat ltac:(lia) ltac:(lia)) as Q12.
  unfold sum3s, kron in *. cbn [Nat.eqb] in *.
  set (a0 := Rm 0%nat 0%nat) in *. set (a1 := Rm 0%nat 1%nat) in *. set (a2 := Rm 0%nat 2%nat) in *.
  set (b0 := Rm 1%nat 0%nat) in *. set (b1 := Rm 1%nat 1%nat) in *. set (b2 := Rm 1%nat 2%nat) in *.
  set (c0 := Rm 2%nat 0%nat) in *. set (c1 := Rm 2%nat 1%nat) in *. set (c2 := Rm 2%nat 2%nat) in *.
  set (v := a0 * (b1 * c2 - b2 * c1) + a1 * (b2 * c0 - b0 * c2) + a2 * (b0 * c1 - b1 * c0)).
  assert (V : volume Rm = v) by (unfold volume, sum3s, cross3; reflexivity).
  (* the square of the volume is the determinant of the products of the rows *)
  assert (V2 : v * v = 1).
  { transitivity ((a0 * a0 + a1 * a1 + a2 * a2) * ((b0 * b0 + b1 * b1 + b2 * b2) * (c0 * c0 + c1 * c1 + c2 * c2) - (b0 * c0 + b1 * c1 + b2 * c2) * (b0 * c0 + b1 * c1 + b2 * c2))
      - (a0 * b0 + a1 * b1 + a2 * b2) * ((a0 * b0 + a1 * b1 + a2 * b2) * (c0 * c0 + c1 * c1 + c2 * c2) - (b0 * c0 + b1 * c1 + b2 * c2) * (a0 * c0 + a1 * c1 + a2 * c2))
      + (a0 * c0 + a1 * c1 + a2 * c2) * ((a0 * b0 + a1 * b1 + a2 * b2) * (b0 * c0 + b1 * c1 + b2 * c2) - (b0 * b0 + b1 * b1 + b2 * b2) * (a0 * c0 + a1 * c1 + a2 * c2))).
    - unfold v. ring.
    - rewrite Q00, Q11, Q22, Q01, Q02, Q12. ring. }
  assert (X : (b1 * c2 - b2 * c1) * (b1 * c2 - b2 * c1) + (b2 * c0 - b0 * c2) * (b2 * c0 - b0 * c2) + (b0 * c1 - b1 * c0) * (b0 * c1 - b1 * c0) = 1).
  { transitivity ((b0 * b0 + b1 * b1 + b2 * b2) * (c0 * c0 + c1 * c1 + c2 * c2) - (b0 * c0 + b1 * c1 + b2 * c2) * (b0 * c0 + b1 * c1 + b2 * c2)); [ring|].
    rewrite Q11, Q22, Q12. ring. }
  assert (Z : (a0 - v * (b1 * c2 - b2 * c1)) * (a0 - v * (b1 * c2 - b2 * c1)) + (a1 - v * (b2 * c0 - b0 * c2)) * (a1 - v * (b2 * c0 - b0 * c2))
      + (a2 - v * (b0 * c1 - b1 * c0)) * (a2 - v * (b0 * c1 - b1 * c0)) = 0).
  { transitivity ((a0 * a0 + a1 * a1 + a2 * a2) - 2 * v * v
      + v * v * ((b1 * c2 - b2 * c1) * (b1 * c2 - b2 * c1) + (b2 * c0 - b0 * c2) * (b2 * c0 - b0 * c2) + (b0 * c1 - b1 * c0) * (b0 * c1 - b1 * c0))).
    - unfold v. ring.
    - rewrite X, Q00. replace (2 * v * v) with (2 * (v * v)) by ring. rewrite V2. ring. }
  assert (SQ : forall x y z : R, x * x + y * y + z * z = 0 -> x = 0 /\ y = 0 /\ z = 0) by (intros; repeat split; nra).
  destruct (SQ _ _ _ Z) as (Z0 & Z1 & Z2).
  assert (VC : v = 1 \/ v = -1) by (assert (W : (v - 1) * (v + 1) = 0) by lra; apply Rmult_integral in W; destruct W; [left|right]; lra).
  destruct VC as [E|E]; [left|right]; rewrite E in *.
  - split.
    + intros k Hk. idx Hk; unfold cross3; [change (a0 = b1 * c2 - b2 * c1)|change (a1 = b2 * c0 - b0 * c2)|change (a2 = b0 * c1 - b1 * c0)]; lra.
    + apply (proj2 (proj1 (C63_accepts ints C11 C12 C44 Rm))). rewrite V, Rminus_diag_eq, Rabs_R0 by reflexivity.
      assert (0 < / 10 ^ 8) by (apply Rinv_0_lt_compat; lra). assert (0 < / 10 ^ 5) by (apply Rinv_0_lt_compat; lra). lra.
  - split.
    + intros k Hk. idx Hk; unfold cross3; [change (a0 = - (b1 * c2 - b2 * c1))|change (a1 = - (b2 * c0 - b0 * c2))|change (a2 = - (b0 * c1 - b1 * c0))]; lra.
    + apply C63_accepts. exact V.
Qed.
Print Assumptions C63_handedness.

(** A shear, which is no rotation, is accepted, and changes even isotropic
    constants. *)
Definition shear_matrix : rmat := fun i j =>
  match i, j with 0%nat, 0%nat | 0%nat, 1%nat | 1%nat, 1%nat | 2%nat, 2%nat => 1 | _, _ => 0 end.
Theorem C63_rotation_check_refuted : exists Cm,
  ~ orthogonal shear_matrix /\ aniso_new false 3 1 1 shear_matrix = Ret Cm /\ 3 - 1 = 2 * 1 /\ Cm 0%nat 0%nat = 12.
Proof.
  assert (D : rdet3 shear_matrix = 1) by (unfold rdet3, shear_matrix; ring).
  destruct (proj2 (proj1 (accepts_det false 3 1 1 shear_matrix))) as [Cm E].
  { rewrite D, Rminus_diag_eq, Rabs_R0 by reflexivity.
    assert (0 < / 10 ^ 8) by (apply Rinv_0_lt_compat; lra). assert (0 < / 10 ^ 5) by (apply Rinv_0_lt_compat; lra). lra. }
  exists Cm. split; [|split; [exact E|split; [ring|]]].
  - intro O. assert (X := O 0%nat 0%nat ltac:(lia) ltac:(lia)). unfold sum3s, shear_matrix, kron in X. cbn [Nat.eqb] in X. lra.
  - transitivity (elasticity_tensor Cm 0 0 0 0); [reflexivity|].
    rewrite (Cm_T0 _ _ _ _ _ E) by lia. rewrite T_closed. unfold PP, sum3, shear_matrix. ring.
Qed.
Print Assumptions C63_rotation_check_refuted.

(** Integer constants: the rotated constants are truncated. *)
Definition rot_45 : rmat := fun i j =>
  match i, j with
  | 0%nat, 0%nat | 1%nat, 1%nat | 1%nat, 0%nat => / sqrt 2 | 0%nat, 1%nat => - / sqrt 2 | 2%nat, 2%nat => 1 | _, _ => 0
  end.
Lemma sqrt2_inv : / sqrt 2 * / sqrt 2 = / 2.
Proof. assert (sqrt 2 * sqrt 2 = 2) by (apply sqrt_sqrt; lra). assert (0 < sqrt 2) by (apply sqrt_lt_R0; lra). rewrite <- Rinv_mult, H. reflexivity. Qed.
Theorem C63_integers_refuted : exists Cm, orthogonal rot_45 /\ aniso_new true 2 1 1 rot_45 = Ret Cm /\
  rotated rot_45 (cubic 2 1 1) 0 0 0 0 = 5 / 2 /\ Cm 0%nat 0%nat = 2.
Proof.
  assert (Q := sqrt2_inv).
  assert (D : rdet3 rot_45 = 1) by (unfold rdet3, rot_45; nra).
  destruct (proj2 (proj1 (accepts_det true 2 1 1 rot_45))) as [Cm E].
  { rewrite D, Rminus_diag_eq, Rabs_R0 by reflexivity.
    assert (0 < / 10 ^ 8) by (apply Rinv_0_lt_compat; lra). assert (0 < / 10 ^ 5) by (apply Rinv_0_lt_compat; lra). lra. }
  assert (V : T0 2 1 1 rot_45 0 0 0 0 = 5 / 2).
  { rewrite T_closed. unfold PP, sum3, rot_45. set (s := / sqrt 2) in *. clearbody s.
    replace (s * s * s * s) with (/ 2 * / 2) by (rewrite <- Q; ring). replace (- s * - s * - s * - s) with (/ 2 * / 2) by (rewrite <- Q; ring).
    replace (s * s + - s * - s + 0 * 0) with 1 by lra. field. }
  exists Cm. split; [|split; [exact E|split]].
  - intros i j Hi Hj. idx Hi; idx Hj; unfold sum3s, rot_45, kron; cbn [Nat.eqb]; lra.
  - rewrite <- T_rotated. exact V.
  - transitivity (elasticity_tensor Cm 0 0 0 0); [reflexivity|]. rewrite (aniso_tensor _ _ _ _ _ _ E) by lia. rewrite V. cbn [stored].
    unfold trunc. destruct (Rle_dec 0 (5 / 2)); [|lra]. replace (Int_part (5 / 2)) with 2%Z; [reflexivity|].
    unfold Int_part. assert (U : up (5 / 2) = 3%Z); [|lia]. symmetry. apply tech_up; lra.
Qed.
Print Assumptions C63_integers_refuted.

(** ** Green's function *)

(** For every traction amplitude [t] there is an elastic field of the rotated
    crystal in [z <= 0] with the tractions [t] on the surface [z = 0], whose
    displacement of the surface is given by the transpose of the returned matrix
    (which is its conjugate, see below), and which decays with depth. *)
Theorem C63_half_space : forall solve roots null_space C11 C12 C44 Rm Cm lx ly Gs,
  solve_ok solve -> roots_short roots -> null_ok null_space ->
  aniso_new false C11 C12 C44 Rm = Ret Cm -> orthogonal Rm ->
  0 < C44 -> 0 < C11 - C12 -> 0 < C11 + 2 * C12 ->
  greens_function solve roots null_space Cm None (Arr lx) (Arr ly) = Ret Gs ->
  length Gs = length lx /\ length ly = length lx /\
  forall k x y (t : nat -> C), (k < length lx)%nat -> x = nth k lx 0 -> y = nth k ly 0 -> x <> 0 \/ y <> 0 ->
  exists u, elastic_field (rotated Rm (cubic C11 C12 C44)) u (fun i X Y => wave x y (t i) X Y) /\
    (forall l X Y, (l < 3)%nat -> u l X Y 0 = wave x y (csum3s (fun i => nth k Gs eye i l * t i))%C X Y) /\
    (forall l X Y, (l < 3)%nat -> is_lim (fun z => u l X Y z) m_infty 0).
Proof.
  intros solve roots null_space C11 C12 C44 Rm Cm lx ly Gs Hs Hr Hn Hnew O H44 H1 H2 E.
  destruct (gf_entry solve roots null_space Cm None lx ly Gs E) as (L1 & L2 & N). split; [exact L2|]. split; [exact L1|].
  intros k x y t Hk Ex Ey Hq. destruct (N k x y eye Hk Ex Ey) as (M & EM & VM).
  destruct (response1 solve roots null_space Hs Hr Hn C11 C12 C44 Rm Cm Hnew None H44 H1 H2 O x y M t Hq EM) as (u & U1 & U2 & U3).
  exists u. split; [exact U1|]. split.
  - intros l X Y Hl. rewrite (U2 l X Y Hl). unfold csum3, csum3s. rewrite !VM. reflexivity.
  - destruct U3 as [[_ U3]|(h & X & _)]; [exact U3|discriminate].
Qed.
Print Assumptions C63_half_space.

(** A layer of thickness [h] on a rigid base: the displacement vanishes at the
    base.  Layers with a plane wave that decays by more than exp(-100) over the
    layer are treated as a half space. *)
Theorem C63_layer : forall solve roots null_space C11 C12 C44 Rm Cm h lx ly Gs,
  solve_ok solve -> roots_short roots -> null_ok null_space ->
  aniso_new false C11 C12 C44 Rm = Ret Cm -> orthogonal Rm ->
  0 < C44 -> 0 < C11 - C12 -> 0 < C11 + 2 * C12 -> h <> 0 ->
  greens_function solve roots null_space Cm (Some h) (Arr lx) (Arr ly) = Ret Gs ->
  length Gs = length lx /\ length ly = length lx /\
  forall k x y (t : nat -> C), (k < length lx)%nat -> x = nth k lx 0 -> y = nth k ly 0 ->
  let c := rotated Rm (cubic C11 C12 C44) in
  exists u, elastic_field c u (fun i X Y => wave x y (t i) X Y) /\
    (forall l X Y, (l < 3)%nat -> u l X Y 0 = wave x y (csum3s (fun i => nth k Gs eye i l * t i))%C X Y) /\
    ((forall l X Y, (l < 3)%nat -> u l X Y (- h) = 0) \/
     (exists qz v, plane_wave c x y qz v /\ (exists l, (l < 3)%nat /\ v l <> RtoC 0) /\ h * - snd qz > 100) /\
     (forall l X Y, (l < 3)%nat -> is_lim (fun z => u l X Y z) m_infty 0)).
Proof.
  intros solve roots null_space C11 C12 C44 Rm Cm h lx ly Gs Hs Hr Hn Hnew O H44 H1 H2 Hh E.
  destruct (gf_entry solve roots null_space Cm (Some h) lx ly Gs E) as (L1 & L2 & N). split; [exact L2|]. split; [exact L1|].
  intros k x y t Hk Ex Ey c. destruct (N k x y eye Hk Ex Ey) as (M & EM & VM).
  assert (Q : (x <> 0 \/ y <> 0) \/ (x = 0 /\ y = 0)).
  { destruct (Req_dec x 0); [|auto]. destruct (Req_dec y 0); auto. }
  destruct Q as [Hq|[Zx Zy]].
  - destruct (response1 solve roots null_space Hs Hr Hn C11 C12 C44 Rm Cm Hnew (Some h) H44 H1 H2 O x y M t Hq EM) as (u & U1 & U2 & U3).
    exists u. split; [exact U1|]. split.
    + intros l X Y Hl. rewrite (U2 l X Y Hl). unfold csum3, csum3s. rewrite !VM. reflexivity.
    + destruct U3 as [[[X|(h' & qz & v & Eh & W)] U3]|(h' & Eh & U3)].
      * discriminate.
      * right. injection Eh as <-. split; [exists qz, v; exact W|exact U3].
      * left. injection Eh as <-. exact U3.
  - clear Ex Ey. subst x y. rewrite abs_q_00 in EM, VM. cbn [scaled_thickness] in EM.
    replace (0 / 1) with 0 in EM by field. rewrite Rmult_1_r in EM.
    destruct (gamma_response solve roots null_space Hs C11 C12 C44 Rm Cm Hnew (Some h) h M t eq_refl Hh EM) as (u & U1 & U2 & U3).
    exists u. split; [exact U1|]. split; [|left; exact U3].
    intros l X Y Hl. rewrite (U2 l X Y Hl). f_equal. unfold csum3, csum3s. rewrite !VM. field; intro Z; apply RtoC_inj in Z; lra.
Qed.
Print Assumptions C63_layer.

(** Reciprocity: the Green's function of the half space is Hermitian. *)
Theorem C63_hermitian : forall solve roots null_space C11 C12 C44 Rm Cm lx ly Gs,
  solve_ok solve -> roots_short roots -> null_ok null_space ->
  aniso_new false C11 C12 C44 Rm = Ret Cm -> orthogonal Rm ->
  0 < C44 -> 0 < C11 - C12 -> 0 < C11 + 2 * C12 ->
  greens_function solve roots null_space Cm None (Arr lx) (Arr ly) = Ret Gs ->
  forall k x y, (k < length lx)%nat -> x = nth k lx 0 -> y = nth k ly 0 -> x <> 0 \/ y <> 0 ->
  forall i j, (i < 3)%nat -> (j < 3)%nat -> nth k Gs eye i j = Cconj (nth k Gs eye j i).
Proof.
  intros solve roots null_space C11 C12 C44 Rm Cm lx ly Gs Hs Hr Hn Hnew O H44 H1 H2 E k x y Hk Ex Ey Hq i j Hi Hj.
  destruct (gf_entry solve roots null_space Cm None lx ly Gs E) as (L1 & L2 & N). destruct (N k x y eye Hk Ex Ey) as (M & EM & VM).
  assert (HU := abs_q_unit x y Hq). assert (HA := abs_q_pos x y). rewrite !VM. set (a := abs_q x y) in *. clearbody a.
  destruct (gf1_modes solve roots null_space Hs Hr Hn Cm None _ _ _ _ HU EM) as (n & U & F & qz & eta & Ai & _ & MO & _ & A2 & A3).
  cbn [scaled_thickness] in MO. assert (n3 := mo_none _ _ _ _ _ _ _ _ _ MO eq_refl). subst n.
  assert (S := modes_strict C11 C12 C44 Rm Cm Hnew H44 H1 H2 O _ _ _ _ _ _ _ _ HU MO eq_refl).
  rewrite (X_hermitian Cm (Cm_major C11 C12 C44 Rm Cm Hnew) (x / a) (y / a) U F qz eta None MO S M Ai A2 A3 i j Hi Hj).
  unfold Cdiv. rewrite Cconj_mult. f_equal. symmetry. rewrite <- RtoC_inv by lra. apply Cconj_RtoC.
Qed.
Print Assumptions C63_hermitian.

(** [stiffness] is the inverse of [greens_function]. *)
Theorem C63_inverse : forall solve roots null_space Cm th lx ly Gs Ss,
  solve_ok solve -> roots_short roots -> null_ok null_space ->
  greens_function solve roots null_space Cm th (Arr lx) (Arr ly) = Ret Gs ->
  stiffness solve roots null_space Cm th (Arr lx) (Arr ly) = Ret Ss ->
  forall k x y, (k < length lx)%nat -> x = nth k lx 0 -> y = nth k ly 0 -> x <> 0 \/ y <> 0 \/ th <> None ->
  forall i j, (i < 3)%nat -> (j < 3)%nat ->
    csum3s (fun l => nth k Ss eye i l * nth k Gs eye l j)%C = RtoC (kron i j) /\
    csum3s (fun l => nth k Gs eye i l * nth k Ss eye l j)%C = RtoC (kron i j).
Proof.
  intros solve roots null_space Cm th lx ly Gs Ss Hs Hr Hn EG ES k x y Hk Ex Ey Hq.
  destruct (gf_entry solve roots null_space Cm th lx ly Gs EG) as (_ & _ & NG).
  destruct (st_entry solve roots null_space Cm th lx ly Ss ES) as (_ & _ & NS).
  destruct (NG k x y eye Hk Ex Ey) as (G & EG1 & VG). destruct (NS k x y eye Hk Ex Ey) as (S & ES1 & VS).
  assert (HA := abs_q_pos x y).
  assert (Two : forall A X, solve 3%nat 3%nat A eye = Ret X -> is_eye 3 (cprod 3 A X) /\ is_eye 3 (cprod 3 X A)).
  { intros A X E. apply Hs in E. destruct E as ((Ai & I1 & I2) & I3).
    assert (EQ : forall i j, (i < 3)%nat -> (j < 3)%nat -> X i j = Ai i j).
    { intros i j Hi Hj. rewrite <- (eye_l 3 (cprod 3 Ai A) X i j I2 Hi). rewrite cprod_assoc.
      transitivity (Csum 3 (fun l => Ai i l * eye l j)%C).
      - apply Csum_ext. intros l Hl. rewrite I3 by assumption. reflexivity.
      - rewrite Csum3. unfold csum3, eye. idx Hj; cbn [Nat.eqb]; ring. }
    split; intros i j Hi Hj.
    - rewrite I3 by assumption. reflexivity.
    - rewrite <- (I2 i j Hi Hj). unfold cprod. apply Csum_ext. intros l Hl. rewrite EQ by assumption. reflexivity. }
  assert (XR : forall A B B' i j, (forall l, (l < 3)%nat -> B l j = B' l j) -> cprod 3 A B i j = cprod 3 A B' i j).
  { intros A B B' i j H. apply Csum_ext. intros l Hl. rewrite H by exact Hl. reflexivity. }
  assert (XL : forall A A' B i j, (forall l, (l < 3)%nat -> A i l = A' i l) -> cprod 3 A B i j = cprod 3 A' B i j).
  { intros A A' B i j H. apply Csum_ext. intros l Hl. rewrite H by exact Hl. reflexivity. }
  assert (Pair : is_eye 3 (cprod 3 S G) /\ is_eye 3 (cprod 3 G S)).
  { assert (Q : (x <> 0 \/ y <> 0) \/ ((x = 0 /\ y = 0) /\ th <> None)).
    { destruct (Req_dec x 0) as [->|]; [|auto]. destruct (Req_dec y 0) as [->|]; [|auto]. destruct Hq as [Hq|[Hq|Hq]]; try lra; auto. }
    destruct Q as [Q|[[Zx Zy] Q]].
    - assert (HU := abs_q_unit x y Q). set (a := abs_q x y) in *. unfold stiffness1 in ES1. rewrite (not_below _ _ HU) in ES1.
      destruct th as [h|]; cbn [scaled_thickness] in *.
      + rewrite EG1 in ES1. cbn [bind] in ES1. unfold inv in ES1. destruct (Two _ _ ES1). split; assumption.
      + destruct (gf1_modes solve roots null_space Hs Hr Hn Cm None _ _ _ _ HU EG1) as (n & U & F & qz & eta & Ai & EU & MO & A1 & A2 & A3).
        assert (n3 := mo_none _ _ _ _ _ _ _ _ _ MO eq_refl). subst n. rewrite EU in ES1. cbn [bind] in ES1.
        apply Hs in ES1. destruct ES1 as ((Bi & B1 & B2) & B3).
        assert (L : forall i j, (i < 3)%nat -> (j < 3)%nat -> cprod 3 S G i j = if Nat.eqb i j then RtoC 1 else RtoC 0).
        { intros i j Hi Hj. rewrite <- (eye_l 3 (cprod 3 Bi (transpose U)) (cprod 3 S G) i j B2 Hi). rewrite cprod_assoc.
          rewrite <- (B2 i j Hi Hj). apply XR. intros l Hl.
          transitivity (cprod 3 (cprod 3 (transpose U) S) G l j); [symmetry; apply cprod_assoc|]. rewrite <- (A3 l j Hl Hj). apply XL. intros m Hm. rewrite B3 by assumption. reflexivity. }
        assert (Rr : forall i j, (i < 3)%nat -> (j < 3)%nat -> cprod 3 G S i j = if Nat.eqb i j then RtoC 1 else RtoC 0).
        { intros i j Hi Hj. rewrite <- (eye_l 3 (cprod 3 Ai (transpose F)) (cprod 3 G S) i j A2 Hi). rewrite cprod_assoc.
          rewrite <- (A2 i j Hi Hj). apply XR. intros l Hl.
          transitivity (cprod 3 (cprod 3 (transpose F) G) S l j); [symmetry; apply cprod_assoc|]. rewrite <- (B3 l j Hl Hj). apply XL. intros m Hm. rewrite A3 by assumption. reflexivity. }
        split; assumption.
    - rewrite Zx, Zy, abs_q_00 in EG1, ES1. replace (0 / 1) with 0 in EG1, ES1 by field.
      destruct th as [h|]; [|exfalso; apply Q; reflexivity]. cbn [scaled_thickness] in EG1, ES1.
      unfold stiffness1 in ES1. unfold greens_function1 in EG1. rewrite below_0 in ES1, EG1. cbn [andb] in ES1, EG1.
      rewrite ES1 in EG1. cbn [bind] in EG1. unfold inv in EG1. destruct (Two _ _ EG1). split; assumption. }
  intros i j Hi Hj. destruct Pair as [P1 P2]. specialize (P1 i j Hi Hj). specialize (P2 i j Hi Hj).
  unfold cprod in P1, P2. rewrite Csum3 in P1, P2.
  assert (HA' : RtoC (abs_q x y) <> RtoC 0) by (intro Z; apply RtoC_inj in Z; lra).
  assert (K : RtoC (kron i j) = if Nat.eqb i j then RtoC 1 else RtoC 0) by (unfold kron; destruct (Nat.eqb i j); reflexivity).
  split; rewrite K; [rewrite <- P1|rewrite <- P2]; unfold csum3s, csum3; rewrite !VG, !VS; field; exact HA'.
Qed.
Print Assumptions C63_inverse.

(** ** Zero wavevector *)

Lemma one_mode : forall solve roots null_space Cm x y th nUF, make_U_and_F solve roots null_space Cm x y th = Ret nUF ->
  exists qz v, null_space (bulkop Cm (RtoC x) (RtoC y) qz) = [v].
Proof.
  intros solve roots null_space Cm x y th nUF H. unfold make_U_and_F in H.
  destruct (find_eigenvalues solve roots Cm x y) as [q0|e]; [|discriminate]. cbn [bind] in H.
  destruct (find_eigenvectors null_space Cm x y (mode_list th q0)) as [eta|e] eqn:E1; [|discriminate]. cbn [bind] in H.
  destruct (make_F Cm x y (mode_list th q0) eta th) as [F|e] eqn:E2; [|discriminate].
  unfold make_F in E2. destruct (Nat.ltb_spec (length (mode_list th q0)) 3) as [X|X]; [discriminate|].
  unfold find_eigenvectors in E1. apply seq_res_all in E1. destruct E1 as [_ N].
  specialize (N 0%nat (RtoC 0) (fun _ => RtoC 0) ltac:(lia)). unfold find_eigenvector in N.
  exists (nth 0 (mode_list th q0) (RtoC 0)).
  destruct (null_space _) as [|v [|v' l]]; try discriminate. exists v. reflexivity.
Qed.

(** The half space at a vanishing wavevector: [stiffness] is zero, and
    [greens_function] is an exception. *)
Theorem C63_zero : forall solve roots null_space C11 C12 C44 Rm Cm lx ly,
  null_ok null_space -> aniso_new false C11 C12 C44 Rm = Ret Cm -> orthogonal Rm ->
  0 < C44 -> 0 < C11 - C12 -> 0 < C11 + 2 * C12 ->
  forall k, (k < length lx)%nat -> nth k lx 0 = 0 -> nth k ly 0 = 0 ->
  (forall Gs, greens_function solve roots null_space Cm None (Arr lx) (Arr ly) <> Ret Gs) /\
  (forall Ss, stiffness solve roots null_space Cm None (Arr lx) (Arr ly) = Ret Ss -> forall i j, nth k Ss eye i j = RtoC 0).
Proof.
  intros solve roots null_space C11 C12 C44 Rm Cm lx ly Hn Hnew O H44 H1 H2 k Hk Zx Zy. split.
  - intros Gs E. destruct (gf_entry solve roots null_space Cm None lx ly Gs E) as (_ & _ & N).
    destruct (N k 0 0 eye Hk (eq_sym Zx) (eq_sym Zy)) as (M & EM & _). rewrite abs_q_00 in EM. replace (0 / 1) with 0 in EM by field.
    cbn [scaled_thickness] in EM. unfold greens_function1 in EM. cbn [andb] in EM.
    destruct (make_U_and_F solve roots null_space Cm 0 0 None) as [nUF|e] eqn:EU; [|discriminate].
    destruct (one_mode _ _ _ _ _ _ _ _ EU) as (qz & v & NS). destruct (Hn _ _ NS) as (V1 & V2 & V3).
    exact (zero_wavevector C11 C12 C44 H44 H1 H2 Rm O Cm (Cm_T0 C11 C12 C44 Rm Cm Hnew) qz v V2 V1 V3).
  - intros Ss E i j. destruct (st_entry solve roots null_space Cm None lx ly Ss E) as (_ & _ & N).
    destruct (N k 0 0 eye Hk (eq_sym Zx) (eq_sym Zy)) as (M & EM & VM). rewrite VM. rewrite abs_q_00 in *. replace (0 / 1) with 0 in EM by field.
    unfold stiffness1 in EM. rewrite below_0 in EM. cbn [andb scaled_thickness] in EM. injection EM as <-. ring.
Qed.
Print Assumptions C63_zero.

(** ** Eigenvalues *)

(** For the crystal in its own axes: each value [Q] that [find_eigenvalues]
    returns belongs to two plane waves, with the third wavevector component
    [-i Q] (decaying into the half space) and [i Q]. *)
Theorem C63_eigenvalues : forall solve roots C11 C12 C44 Cm qx qy qs Q,
  solve_ok solve -> roots_ok roots -> aniso_new false C11 C12 C44 kron = Ret Cm ->
  find_eigenvalues solve roots Cm qx qy = Ret qs -> In Q qs ->
  0 <= fst Q /\ forall qz, (qz = - Ci * Q \/ qz = Ci * Q)%C ->
  exists v, (exists l, (l < 3)%nat /\ v l <> RtoC 0) /\ plane_wave (cubic C11 C12 C44) qx qy qz v.
Proof.
  intros solve roots C11 C12 C44 Cm qx qy qs Q Hs Hr Hnew E HQ.
  assert (HC : forall i j k l, (i < 3)%nat -> (j < 3)%nat -> (k < 3)%nat -> (l < 3)%nat -> elasticity_tensor Cm i j k l = cubic C11 C12 C44 i j k l).
  { apply (C63_invariance C11 C12 C44 kron Cm Hnew kron_orth). left. intros i Hi. exists i. split; [exact Hi|].
    intros a Ha N. unfold kron. destruct (Nat.eqb_spec i a); [congruence|reflexivity]. }
  destruct (eigenvalue_det solve roots Hs Hr C11 C12 C44 Cm HC qx qy qs Q E HQ) as (P & D1 & D2). split; [exact P|].
  intros qz Hz. assert (D : cdet3 (bulkop Cm (RtoC qx) (RtoC qy) qz) = RtoC 0) by (destruct Hz as [-> | ->]; assumption).
  destruct (det0_kernel _ D) as (v & NZ & K). exists v. split; [exact NZ|]. intros i Hi. specialize (K i Hi).
  transitivity (- csum3 (fun l => bulkop Cm (RtoC qx) (RtoC qy) qz i l * v l))%C; [|rewrite K; ring].
  unfold csum3s, csum3, bulkop, csum3. rewrite !HC by lia. unfold qvec, wavevector. ring.
Qed.
Print Assumptions C63_eigenvalues.

(** Isotropic constants: all values are the length of the wavevector, *)
Theorem C63_isotropic_eigenvalues : forall solve roots C11 C12 C44 Cm qx qy qs Q,
  solve_ok solve -> roots_ok roots -> aniso_new false C11 C12 C44 kron = Ret Cm ->
  C11 - C12 = 2 * C44 -> 0 < C44 -> 0 < C11 ->
  find_eigenvalues solve roots Cm qx qy = Ret qs -> In Q qs -> Q = RtoC (sqrt (qx ^ 2 + qy ^ 2)).
Proof.
  intros solve roots C11 C12 C44 Cm qx qy qs Q Hs Hr Hnew I H44 H11 E HQ.
  assert (HC : forall i j k l, (i < 3)%nat -> (j < 3)%nat -> (k < 3)%nat -> (l < 3)%nat -> elasticity_tensor Cm i j k l = cubic C11 C12 C44 i j k l).
  { apply (C63_invariance C11 C12 C44 kron Cm Hnew kron_orth). right. exact I. }
  destruct (eigenvalue_det solve roots Hs Hr C11 C12 C44 Cm HC qx qy qs Q E HQ) as (P & D1 & _).
  rewrite (det_even C11 C12 C44 Cm HC) in D1.
  assert (I2 : (Ci * Ci = - RtoC 1)%C) by (apply injective_projections; cbn; ring).
  set (x := RtoC qx) in *. set (y := RtoC qy) in *.
  assert (D : (RtoC C44 * RtoC C44 * RtoC C11 * ((x * x + y * y - Q * Q) * ((x * x + y * y - Q * Q) * (x * x + y * y - Q * Q))) = RtoC 0)%C).
  { replace (- Ci * Q * (- Ci * Q))%C with (- (Q * Q))%C in D1 by ring [I2]. unfold Ev in D1. cbv zeta in D1.
    replace C12 with (C11 - 2 * C44) in D1 by lra. rewrite RtoC_minus in D1. replace (2 * C44) with (C44 + C44) in D1 by ring. rewrite RtoC_plus in D1.
    transitivity (- (RtoC 0))%C; [|ring]. rewrite <- D1. ring. }
  assert (N4 : RtoC C44 <> RtoC 0) by (intro Z; apply RtoC_inj in Z; lra).
  assert (N1 : RtoC C11 <> RtoC 0) by (intro Z; apply RtoC_inj in Z; lra).
  assert (SQ : (x * x + y * y - Q * Q = RtoC 0)%C).
  { destruct (Cint _ _ D) as [Z|Z].
    - exfalso. apply (Cmult_neq_0 _ _ (Cmult_neq_0 _ _ N4 N4) N1). exact Z.
    - destruct (Cint _ _ Z) as [Z'|Z']; [exact Z'|]. destruct (Cint _ _ Z') as [Z''|Z'']; exact Z''. }
  destruct Q as [a b]. cbn [fst] in P. assert (S0 := f_equal fst SQ). assert (S1 := f_equal snd SQ). unfold x, y in S0, S1. cbn in S0, S1.
  assert (B : b = 0).
  { assert (AB : a * b = 0) by lra. apply Rmult_integral in AB. destruct AB as [-> | ->]; [|reflexivity]. nra. }
  subst b. unfold RtoC. f_equal. symmetry. replace (qx ^ 2 + qy ^ 2) with (a * a) by lra. apply sqrt_square. exact P.
Qed.
Print Assumptions C63_isotropic_eigenvalues.

(** and no Green's function is ever returned for them: the waves of the isotropic
    solid do not have one-dimensional null spaces. *)
Theorem C63_isotropic_refuted : forall solve roots null_space C11 C12 C44 Rm Cm th lx ly,
  null_ok null_space -> aniso_new false C11 C12 C44 Rm = Ret Cm -> orthogonal Rm ->
  0 < C44 -> 0 < C11 - C12 -> 0 < C11 + 2 * C12 -> C11 - C12 = 2 * C44 ->
  forall k, (k < length lx)%nat -> nth k lx 0 <> 0 \/ nth k ly 0 <> 0 ->
  (forall Gs, greens_function solve roots null_space Cm th (Arr lx) (Arr ly) <> Ret Gs) /\
  (forall Ss, stiffness solve roots null_space Cm th (Arr lx) (Arr ly) <> Ret Ss).
Proof.
  intros solve roots null_space C11 C12 C44 Rm Cm th lx ly Hn Hnew O H44 H1 H2 I k Hk Hq.
  assert (No : forall x y th nUF, make_U_and_F solve roots null_space Cm x y th = Ret nUF -> False).
  { intros x y th' nUF EU. destruct (one_mode _ _ _ _ _ _ _ _ EU) as (qz & v & NS). destruct (Hn _ _ NS) as (V1 & V2 & V3).
    exact (isotropic_kernel C11 C12 C44 H44 H1 H2 Rm O Cm (Cm_T0 C11 C12 C44 Rm Cm Hnew) I x y qz v V2 V1 V3). }
  assert (HU := abs_q_unit _ _ Hq).
  assert (NG : forall th' M, greens_function1 solve roots null_space Cm th (nth k lx 0 / abs_q (nth k lx 0) (nth k ly 0)) (nth k ly 0 / abs_q (nth k lx 0) (nth k ly 0)) th' <> Ret M).
  { intros th' M EM. unfold greens_function1 in EM. rewrite (not_below _ _ HU), andb_false_r in EM.
    destruct (make_U_and_F _ _ _ _ _ _ _) as [nUF|e] eqn:EU; [|discriminate]. exact (No _ _ _ _ EU). }
  split.
  - intros Gs E. destruct (gf_entry solve roots null_space Cm th lx ly Gs E) as (_ & _ & N).
    destruct (N k _ _ eye Hk eq_refl eq_refl) as (M & EM & _). exact (NG _ _ EM).
  - intros Ss E. destruct (st_entry solve roots null_space Cm th lx ly Ss E) as (_ & _ & N).
    destruct (N k _ _ eye Hk eq_refl eq_refl) as (M & EM & _). unfold stiffness1 in EM. rewrite (not_below _ _ HU) in EM.
    destruct (scaled_thickness th _) as [h|].
    + destruct (greens_function1 _ _ _ _ _ _ _ _) as [M'|e] eqn:EM'; [|discriminate]. exact (NG _ _ EM').
    + destruct (make_U_and_F _ _ _ _ _ _ _) as [nUF|e] eqn:EU; [|discriminate]. exact (No _ _ _ _ EU).
Qed.
Print Assumptions C63_isotropic_refuted.

(** Rotated crystals: the determinant need not be even in the third component,
    as the code takes for granted.  For a crystal turned about the y axis no
    library gives a Green's function at (1, 0), though the crystal is stable. *)
Theorem C63_rotated_refuted : forall solve roots null_space Cm,
  solve_ok solve -> roots_ok roots -> null_ok null_space ->
  aniso_new false (17 / 4) 0 1 rot_y = Ret Cm ->
  orthogonal rot_y /\ 0 < 1 /\ 0 < 17 / 4 - 0 /\ 0 < 17 / 4 + 2 * 0 /\
  (exists z, cdet3 (bulkop Cm (RtoC 1) (RtoC 0) z) <> cdet3 (bulkop Cm (RtoC 1) (RtoC 0) (- z)%C)) /\
  forall Gs, greens_function solve roots null_space Cm None (Arr [1]) (Arr [0]) <> Ret Gs.
Proof.
  intros solve roots null_space Cm Hs Hr Hn Hnew. split; [exact rot_y_orth|]. split; [lra|]. split; [lra|]. split; [lra|]. split.
  - exists (RtoC 2). rewrite !(det_rot Cm Hnew). intro X. apply (f_equal fst) in X. cbn in X. lra.
  - intros Gs E. destruct (gf_entry solve roots null_space Cm None [1] [0] Gs E) as (_ & _ & N).
    destruct (N 0%nat 1 0 eye ltac:(cbn; lia) eq_refl eq_refl) as (M & EM & _).
    assert (A1 : abs_q 1 0 = 1).
    { unfold abs_q. replace (1 ^ 2 + 0 ^ 2) with 1 by ring. rewrite sqrt_1. destruct (Req_EM_T 1 0); [lra|reflexivity]. }
    rewrite A1 in EM. replace (1 / 1) with 1 in EM by field. replace (0 / 1) with 0 in EM by field. cbn [scaled_thickness] in EM.
    exact (no_greens1_rot Cm Hnew solve roots Hs Hr null_space Hn M EM).
Qed.
Print Assumptions C63_rotated_refuted.

(** Scalar wavevectors, which the code means to accept, are a TypeError. *)
Theorem C63_scalar_refuted : forall solve roots null_space Cm th x y,
  greens_function solve roots null_space Cm th (Scal x) (Scal y) = Exc TypeErr /\
  stiffness solve roots null_space Cm th (Scal x) (Scal y) = Exc TypeErr.
Proof. intros. split; reflexivity. Qed.
Print Assumptions C63_scalar_refuted.

(** ** The hypotheses are met *)

Lemma gamma_example : exists Gs Ss, greens_function solve0 roots0 null0 Cex (Some 2) (Arr [0]) (Arr [0]) = Ret Gs /\
  stiffness solve0 roots0 null0 Cex (Some 2) (Arr [0]) (Arr [0]) = Ret Ss.
Proof.
  unfold greens_function, stiffness. cbn [length Nat.eqb negb map2 seq_res]. rewrite abs_q_00. replace (0 / 1) with 0 by field.
  unfold greens_function1, stiffness1. rewrite below_0. cbn [andb scaled_thickness gamma_stiffness bind]. unfold inv, solve0.
  destruct (Ceq_dec _ _) as [D|D].
  - exfalso. apply (f_equal fst) in D.
    assert (V : forall i j k l, (i < 3)%nat -> (j < 3)%nat -> (k < 3)%nat -> (l < 3)%nat -> Cex (voigt i j) (voigt k l) = cubic (17 / 4) 0 1 i j k l) by exact Cex_cubic.
    assert (V44 := V 0%nat 2%nat 0%nat 2%nat ltac:(lia) ltac:(lia) ltac:(lia) ltac:(lia)). assert (V34 := V 1%nat 2%nat 0%nat 2%nat ltac:(lia) ltac:(lia) ltac:(lia) ltac:(lia)).
    assert (V24 := V 2%nat 2%nat 0%nat 2%nat ltac:(lia) ltac:(lia) ltac:(lia) ltac:(lia)). assert (V33 := V 1%nat 2%nat 1%nat 2%nat ltac:(lia) ltac:(lia) ltac:(lia) ltac:(lia)).
    assert (V23 := V 2%nat 2%nat 1%nat 2%nat ltac:(lia) ltac:(lia) ltac:(lia) ltac:(lia)). assert (V22 := V 2%nat 2%nat 2%nat 2%nat ltac:(lia) ltac:(lia) ltac:(lia) ltac:(lia)).
    unfold voigt, cubic, kron, sum3s in V44, V34, V24, V33, V23, V22. cbn [Nat.eqb Nat.sub] in V44, V34, V24, V33, V23, V22.
    unfold cdet3 in D. rewrite V44, V34, V24, V33, V23, V22 in D. cbn in D. lra.
  - cbn [bind]. do 2 eexists. split; reflexivity.
Qed.

Example C63_nonvacuous :
  solve_ok solve0 /\ roots_short roots0 /\ null_ok null0 /\ orthogonal kron /\
  aniso_new false (17 / 4) 0 1 kron = Ret Cex /\
  (exists Gs, greens_function solve0 roots0 null0 Cex None (Arr [1]) (Arr [0]) = Ret Gs) /\
  (exists Gs Ss, greens_function solve0 roots0 null0 Cex (Some 2) (Arr [0]) (Arr [0]) = Ret Gs /\
                 stiffness solve0 roots0 null0 Cex (Some 2) (Arr [0]) (Arr [0]) = Ret Ss) /\
  (exists Cm, aniso_new false (17 / 4) 0 1 rot_y = Ret Cm) /\
  roots_ok roots0 /\ find_eigenvalues solve0 roots0 Cex 1 0 = Ret [RtoC 2; RtoC 1; RtoC (1 / 2)].
Proof.
  split; [exact solve0_ok|]. split; [exact roots0_short|]. split; [exact null0_ok|]. split; [exact kron_orth|]. split; [exact Cex_new|].
  split; [exact example_returns|]. split; [exact gamma_example|]. split.
  - apply (accepts_det false (17 / 4) 0 1 rot_y). replace (rdet3 rot_y - 1) with 0 by (unfold rdet3, rot_y; field). rewrite Rabs_R0.
    assert (0 < / 10 ^ 8) by (apply Rinv_0_lt_compat; lra). assert (0 < / 10 ^ 5) by (apply Rinv_0_lt_compat; lra). lra.
  - split; [exact roots0_ok|exact example_eigenvalues].
Qed.
