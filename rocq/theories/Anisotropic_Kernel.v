(** * Kernels and determinants of 3 x 3 matrices, eigenvalues *)

From Coq Require Import Reals Lra Lia Psatz Bool FunctionalExtensionality.
From Coquelicot Require Import Coquelicot.
From Verif Require Import Py FFT_Base GreenwoodTripp_Model GreenwoodTripp_Proofs Isotropic_Proofs Elasticity_Spec Anisotropic_Spec
  Anisotropic_Model Anisotropic_Tensor Anisotropic_Field Anisotropic_Proofs.
From Coq Require Import List.
Import ListNotations.
Local Open Scope R_scope.

Lemma Cint : forall a b : C, (a * b = RtoC 0)%C -> a = RtoC 0 \/ b = RtoC 0.
Proof.
  intros a b H. destruct (Ceq_dec a (RtoC 0)) as [A|A]; [left; exact A|]. destruct (Ceq_dec b (RtoC 0)) as [B|B]; [right; exact B|].
  exfalso. exact (Cmult_neq_0 _ _ A B H).
Qed.

Definition cross (a b : nat -> C) (k : nat) : C :=
  match k with
  | 0%nat => (a 1%nat * b 2%nat - a 2%nat * b 1%nat)%C
  | 1%nat => (a 2%nat * b 0%nat - a 0%nat * b 2%nat)%C
  | _ => (a 0%nat * b 1%nat - a 1%nat * b 0%nat)%C
  end.
Definition zero3 (v : nat -> C) : Prop := v 0%nat = RtoC 0 /\ v 1%nat = RtoC 0 /\ v 2%nat = RtoC 0.
Definition zero3_dec (v : nat -> C) : {zero3 v} + {exists l, (l < 3)%nat /\ v l <> RtoC 0}.
Proof.
  destruct (Ceq_dec (v 0%nat) (RtoC 0)) as [A|A]; [|right; exists 0%nat; split; [lia|exact A]].
  destruct (Ceq_dec (v 1%nat) (RtoC 0)) as [B|B]; [|right; exists 1%nat; split; [lia|exact B]].
  destruct (Ceq_dec (v 2%nat) (RtoC 0)) as [D|D]; [|right; exists 2%nat; split; [lia|exact D]].
  left. split; [exact A|split; assumption].
Defined.

(** A vector orthogonal to all rows. *)
Lemma cross_kernel : forall M p q, (p < 3)%nat -> (q < 3)%nat -> p <> q -> cdet3 M = RtoC 0 -> kernel M (cross (M p) (M q)).
Proof.
  intros M p q Hp Hq N D i Hi.
  assert (Z : (csum3 (fun l => M i l * cross (M p) (M q) l) = RtoC 0 \/ csum3 (fun l => M i l * cross (M p) (M q) l) = cdet3 M
          \/ csum3 (fun l => M i l * cross (M p) (M q) l) = - cdet3 M)%C).
  { idx Hp; idx Hq; try (exfalso; apply N; reflexivity); idx Hi; unfold csum3, cross, cdet3;
      ((left; ring) || (right; left; ring) || (right; right; ring)). }
  destruct Z as [->|[->| ->]]; rewrite ?D; ring.
Qed.
Lemma cross_span : forall M p q w, (p < 3)%nat -> (q < 3)%nat ->
  (exists l, (l < 3)%nat /\ cross (M p) (M q) l <> RtoC 0) -> kernel M w ->
  exists c, forall i, (i < 3)%nat -> w i = (c * cross (M p) (M q) i)%C.
Proof.
  intros M p q w Hp Hq (l & Hl & N) K. assert (Kp := K p Hp). assert (Kq := K q Hq).
  set (a := M p) in *. set (b := M q) in *. exists (w l / cross a b l)%C. intros i Hi.
  assert (E : (w i * cross a b l = w l * cross a b i)%C).
  { unfold csum3 in Kp, Kq.
    assert (X : (w i * cross a b l - w l * cross a b i = RtoC 0)%C); [|].
    { idx Hi; idx Hl; unfold cross; try ring.
      - transitivity ((a 2%nat * (b 0%nat * w 0%nat + b 1%nat * w 1%nat + b 2%nat * w 2%nat) - b 2%nat * (a 0%nat * w 0%nat + a 1%nat * w 1%nat + a 2%nat * w 2%nat)))%C; [ring|rewrite Kp, Kq; ring].
      - transitivity (- (a 1%nat * (b 0%nat * w 0%nat + b 1%nat * w 1%nat + b 2%nat * w 2%nat) - b 1%nat * (a 0%nat * w 0%nat + a 1%nat * w 1%nat + a 2%nat * w 2%nat)))%C; [ring|rewrite Kp, Kq; ring].
      - transitivity (- (a 2%nat * (b 0%nat * w 0%nat + b 1%nat * w 1%nat + b 2%nat * w 2%nat) - b 2%nat * (a 0%nat * w 0%nat + a 1%nat * w 1%nat + a 2%nat * w 2%nat)))%C; [ring|rewrite Kp, Kq; ring].
      - transitivity ((a 0%nat * (b 0%nat * w 0%nat + b 1%nat * w 1%nat + b 2%nat * w 2%nat) - b 0%nat * (a 0%nat * w 0%nat + a 1%nat * w 1%nat + a 2%nat * w 2%nat)))%C; [ring|rewrite Kp, Kq; ring].
      - transitivity ((a 1%nat * (b 0%nat * w 0%nat + b 1%nat * w 1%nat + b 2%nat * w 2%nat) - b 1%nat * (a 0%nat * w 0%nat + a 1%nat * w 1%nat + a 2%nat * w 2%nat)))%C; [ring|rewrite Kp, Kq; ring].
      - transitivity (- (a 0%nat * (b 0%nat * w 0%nat + b 1%nat * w 1%nat + b 2%nat * w 2%nat) - b 0%nat * (a 0%nat * w 0%nat + a 1%nat * w 1%nat + a 2%nat * w 2%nat)))%C; [ring|rewrite Kp, Kq; ring]. }
    transitivity ((w i * cross a b l - w l * cross a b i) + w l * cross a b i)%C; [ring|]. rewrite X. ring. }
  transitivity (w i * cross a b l / cross a b l)%C; [field; exact N|]. rewrite E. field. exact N.
Qed.

(** A null space routine. *)
Definition null0 (M : cmx) : list (nat -> C) :=
  if Ceq_dec (cdet3 M) (RtoC 0) then
    if zero3_dec (cross (M 0%nat) (M 1%nat)) then
      if zero3_dec (cross (M 0%nat) (M 2%nat)) then
        if zero3_dec (cross (M 1%nat) (M 2%nat)) then [fun _ => RtoC 0; fun _ => RtoC 0]
        else [cross (M 1%nat) (M 2%nat)]
      else [cross (M 0%nat) (M 2%nat)]
    else [cross (M 0%nat) (M 1%nat)]
  else [].
Lemma null0_ok : null_ok null0.
Proof.
  intros M v H. unfold null0 in H. destruct (Ceq_dec (cdet3 M) (RtoC 0)) as [D|D]; [|discriminate].
  destruct (zero3_dec (cross (M 0%nat) (M 1%nat))) as [Z1|N1].
  - destruct (zero3_dec (cross (M 0%nat) (M 2%nat))) as [Z2|N2].
    + destruct (zero3_dec (cross (M 1%nat) (M 2%nat))) as [Z3|N3]; [discriminate|]. injection H as <-.
      split; [exact N3|]. split; [apply cross_kernel; (lia || exact D)|intros w; apply cross_span; (lia || exact N3)].
    + injection H as <-. split; [exact N2|]. split; [apply cross_kernel; (lia || exact D)|intros w; apply cross_span; (lia || exact N2)].
  - injection H as <-. split; [exact N1|]. split; [apply cross_kernel; (lia || exact D)|intros w; apply cross_span; (lia || exact N1)].
Qed.

(** A singular matrix has a kernel. *)
Lemma det0_kernel : forall M, cdet3 M = RtoC 0 -> exists v, (exists l, (l < 3)%nat /\ v l <> RtoC 0) /\ kernel M v.
Proof.
  intros M D.
  destruct (zero3_dec (cross (M 0%nat) (M 1%nat))) as [Z1|N1]; [|exists (cross (M 0%nat) (M 1%nat)); split; [exact N1|apply cross_kernel; (lia || exact D)]].
  destruct (zero3_dec (cross (M 0%nat) (M 2%nat))) as [Z2|N2]; [|exists (cross (M 0%nat) (M 2%nat)); split; [exact N2|apply cross_kernel; (lia || exact D)]].
  destruct (zero3_dec (cross (M 1%nat) (M 2%nat))) as [Z3|N3]; [|exists (cross (M 1%nat) (M 2%nat)); split; [exact N3|apply cross_kernel; (lia || exact D)]].
  (* all rows are parallel *)
  assert (One : RtoC 1 <> RtoC 0) by (intro E; apply RtoC_inj in E; lra).
  destruct Z1 as (a0 & a1 & a2). destruct Z2 as (b0 & b1 & b2). destruct Z3 as (d0 & d1 & d2). unfold cross in *.
  assert (Par : forall r, (r < 3)%nat -> forall i, (i < 3)%nat ->
     (M r 1%nat * M i 2%nat - M r 2%nat * M i 1%nat = RtoC 0 /\ M r 2%nat * M i 0%nat - M r 0%nat * M i 2%nat = RtoC 0
      /\ M r 0%nat * M i 1%nat - M r 1%nat * M i 0%nat = RtoC 0)%C).
  { assert (N : forall a b : C, (a - b = RtoC 0 -> b - a = RtoC 0)%C).
    { intros a b E. transitivity (- (a - b))%C; [ring|rewrite E; ring]. }
    intros r Hr i Hi. idx Hr; idx Hi; repeat split; try ring; try assumption;
      first [(etransitivity; [|exact (N _ _ a0)]; ring)|(etransitivity; [|exact (N _ _ a1)]; ring)|(etransitivity; [|exact (N _ _ a2)]; ring)|(etransitivity; [|exact (N _ _ b0)]; ring)|(etransitivity; [|exact (N _ _ b1)]; ring)|(etransitivity; [|exact (N _ _ b2)]; ring)|(etransitivity; [|exact (N _ _ d0)]; ring)|(etransitivity; [|exact (N _ _ d1)]; ring)|(etransitivity; [|exact (N _ _ d2)]; ring)]. }
  assert (Row : forall r, (r < 3)%nat -> (exists l, (l < 3)%nat /\ M r l <> RtoC 0) ->
    exists v, (exists l, (l < 3)%nat /\ v l <> RtoC 0) /\ kernel M v).
  { intros r Hr (l & Hl & N). idx Hl.
    - exists (fun k => match k with 0%nat => M r 1%nat | 1%nat => - M r 0%nat | _ => RtoC 0 end)%C. split.
      + exists 1%nat. split; [lia|]. intro E. apply N. transitivity (- - M r 0%nat)%C; [ring|rewrite E; ring].
      + intros i Hi. destruct (Par r Hr i Hi) as (_ & _ & P). unfold csum3. transitivity (- (M r 0%nat * M i 1%nat - M r 1%nat * M i 0%nat))%C; [ring|rewrite P; ring].
    - exists (fun k => match k with 0%nat => M r 1%nat | 1%nat => - M r 0%nat | _ => RtoC 0 end)%C. split.
      + exists 0%nat. split; [lia|exact N].
      + intros i Hi. destruct (Par r Hr i Hi) as (_ & _ & P). unfold csum3. transitivity (- (M r 0%nat * M i 1%nat - M r 1%nat * M i 0%nat))%C; [ring|rewrite P; ring].
    - exists (fun k => match k with 0%nat => M r 2%nat | 1%nat => RtoC 0 | _ => - M r 0%nat end)%C. split.
      + exists 0%nat. split; [lia|exact N].
      + intros i Hi. destruct (Par r Hr i Hi) as (_ & P & _). unfold csum3. transitivity (M r 2%nat * M i 0%nat - M r 0%nat * M i 2%nat)%C; [ring|rewrite P; ring]. }
  destruct (zero3_dec (M 0%nat)) as [(e0 & e1 & e2)|N0]; [|apply (Row 0%nat); (lia || exact N0)].
  destruct (zero3_dec (M 1%nat)) as [(f0 & f1 & f2)|N0]; [|apply (Row 1%nat); (lia || exact N0)].
  destruct (zero3_dec (M 2%nat)) as [(g0 & g1 & g2)|N0]; [|apply (Row 2%nat); (lia || exact N0)].
  exists (fun _ => RtoC 1). split; [exists 0%nat; split; [lia|exact One]|].
  intros i Hi. unfold csum3. idx Hi; rewrite ?e0, ?e1, ?e2, ?f0, ?f1, ?f2, ?g0, ?g1, ?g2; ring.
Qed.

(** ** Eigenvalues of an unrotated cubic crystal *)

Section Cubic.
  Variables C11 C12 C44 : R.
  Variable Cm : rmat.
  Hypothesis HC : forall i j k l, (i < 3)%nat -> (j < 3)%nat -> (k < 3)%nat -> (l < 3)%nat ->
    elasticity_tensor Cm i j k l = cubic C11 C12 C44 i j k l.
  Variables x y : C.
  Definition Ev (Z : C) : C :=
    (let A := RtoC C11 in let G := RtoC C44 in let s := RtoC C12 + G in
     - ((A * (x * x) + G * (y * y + Z)) * ((A * (y * y) + G * (x * x + Z)) * (A * Z + G * (x * x + y * y)) - s * s * (y * y) * Z)
        - s * s * (x * x) * (y * y) * (A * Z + G * (x * x + y * y)) + s * s * s * (x * x) * (y * y) * Z
        + s * s * s * (x * x) * (y * y) * Z - s * s * (x * x) * Z * (A * (y * y) + G * (x * x + Z))))%C.
  Lemma det_even : forall qz, cdet3 (bulkop Cm x y qz) = Ev (qz * qz)%C.
  Proof.
    intros qz. unfold cdet3, bulkop, csum3. rewrite !HC by lia. unfold cubic, kron, sum3s. cbn [Nat.eqb].
    rewrite ?Rmult_0_l, ?Rmult_0_r, ?Rmult_1_r, ?Rmult_1_l, ?Rplus_0_l, ?Rplus_0_r, ?Rmult_0_r, ?Rmult_1_r, ?Rplus_0_l, ?Rplus_0_r.
    replace (C12 + C44 * (1 + 1) + (C11 - C12 - 2 * C44)) with C11 by ring.
    unfold qvec, Ev. rewrite ?RtoC_plus. ring.
  Qed.
End Cubic.

Definition roots_ok (roots : list C -> list C) : Prop :=
  forall a b c d r, In r (roots [a; b; c; d]) -> (a * r * r * r + b * r * r + c * r + d = RtoC 0)%C.

Lemma RtoC_INR2 : RtoC (INR 2) = (1 + 1)%C.
Proof. rewrite <- RtoC_plus. f_equal. Qed.
Lemma RtoC_INR3 : RtoC (INR 3) = (1 + 1 + 1)%C.
Proof. rewrite <- !RtoC_plus. f_equal. Qed.

Lemma eigenvalue_det : forall solve roots, solve_ok solve -> roots_ok roots ->
  forall C11 C12 C44 Cm, (forall i j k l, (i < 3)%nat -> (j < 3)%nat -> (k < 3)%nat -> (l < 3)%nat ->
    elasticity_tensor Cm i j k l = cubic C11 C12 C44 i j k l) ->
  forall qx qy qs Q, find_eigenvalues solve roots Cm qx qy = Ret qs -> In Q qs ->
  0 <= fst Q /\ cdet3 (bulkop Cm (RtoC qx) (RtoC qy) (- Ci * Q)%C) = RtoC 0 /\ cdet3 (bulkop Cm (RtoC qx) (RtoC qy) (Ci * Q)%C) = RtoC 0.
Proof.
  intros solve roots Hs Hr C11 C12 C44 Cm HC qx qy qs Q E HQ. unfold find_eigenvalues in E.
  destruct (solve 4%nat 1%nat sample_A (sample_b Cm qx qy)) as [p|e] eqn:ES; [|discriminate]. cbn [bind] in E. injection E as <-.
  apply in_map_iff in HQ. destruct HQ as (r & <- & Hin). apply Hr in Hin.
  split; [apply csqrt_fst|].
  assert (SQ := csqrt_sq r). set (Q := csqrt r) in *. clearbody Q.
  assert (I2 : (Ci * Ci = - RtoC 1)%C) by (apply injective_projections; cbn; ring).
  apply Hs in ES. destruct ES as [_ ES].
  set (x := RtoC qx) in *. set (y := RtoC qy) in *.
  set (p0 := p 0%nat 0%nat) in *. set (p1 := p 1%nat 0%nat) in *. set (p2 := p 2%nat 0%nat) in *. set (p3 := p 3%nat 0%nat) in *.
  assert (V : forall a, (a < 4)%nat -> let X := (RtoC (INR a) * RtoC (INR a))%C in
     (p0 * X * X * X + p1 * X * X + p2 * X + p3 = Ev C11 C12 C44 x y (- X))%C).
  { intros a Ha. cbv zeta. specialize (ES a 0%nat Ha ltac:(lia)). unfold sample_b in ES. rewrite (det_even C11 C12 C44 Cm HC) in ES.
    fold x y in ES.
    replace (Ci * RtoC (INR a) * (Ci * RtoC (INR a)))%C with (- (RtoC (INR a) * RtoC (INR a)))%C in ES by ring [I2].
    rewrite <- ES. unfold cprod. cbn [Csum]. unfold sample_A. fold p0 p1 p2 p3. cbn [pow]. rewrite ?RtoC_mult. ring. }
  assert (V0 := V 0%nat ltac:(lia)). assert (V1 := V 1%nat ltac:(lia)). assert (V2 := V 2%nat ltac:(lia)). assert (V3 := V 3%nat ltac:(lia)).
  cbv zeta in V0, V1, V2, V3. rewrite RtoC_INR2 in V2. rewrite RtoC_INR3 in V3.
  change (INR 0) with 0 in V0. change (INR 1) with 1 in V1. clear V ES.
  assert (D0 : Ev C11 C12 C44 x y (- r)%C = RtoC 0).
  { (* Lagrange interpolation through the four squares *)
    set (three := (1 + 1 + 1)%C) in *. set (two := (1 + 1)%C) in *.
    set (four := (two * two)%C). set (nine := (three * three)%C).
    assert (N360 : ((nine + 1) * four * nine)%C <> RtoC 0).
    { assert (EE : ((nine + 1) * four * nine)%C = RtoC 360) by (unfold nine, four, three, two; apply injective_projections; cbn; ring).
      rewrite EE. intro E. apply RtoC_inj in E. lra. }
    assert (L : forall f0 f1 f2 f3 (f : C),
      ((nine + 1) * four * nine * f =
        - (nine + 1) * f0 * ((r - 1) * (r - four) * (r - nine)) + (nine + four + two) * f1 * (r * (r - four) * (r - nine))
        - (four + two) * f2 * (r * (r - 1) * (r - nine)) + f3 * (r * (r - 1) * (r - four)))%C ->
      f = ((- (nine + 1) * f0 * ((r - 1) * (r - four) * (r - nine)) + (nine + four + two) * f1 * (r * (r - four) * (r - nine))
        - (four + two) * f2 * (r * (r - 1) * (r - nine)) + f3 * (r * (r - 1) * (r - four))) / ((nine + 1) * four * nine))%C).
    { intros f0 f1 f2 f3 f E. rewrite <- E. clear - N360. revert N360. generalize ((nine + 1) * four * nine)%C. intros K NK. field. exact NK. }
    rewrite (L (Ev C11 C12 C44 x y (- (RtoC 0 * RtoC 0))%C) (Ev C11 C12 C44 x y (- (RtoC 1 * RtoC 1))%C)
               (Ev C11 C12 C44 x y (- (two * two))%C) (Ev C11 C12 C44 x y (- (three * three))%C) (Ev C11 C12 C44 x y (- r)%C)).
    2: { unfold Ev, nine, four, three, two. ring. }
    rewrite <- V0, <- V1, <- V2, <- V3. etransitivity; [|exact Hin]. symmetry. apply L.
    unfold nine, four, three, two. ring. }
  split; rewrite (det_even C11 C12 C44 Cm HC).
  - replace (- Ci * Q * (- Ci * Q))%C with (- r)%C by (rewrite <- SQ; ring [I2]). exact D0.
  - replace (Ci * Q * (Ci * Q))%C with (- r)%C by (rewrite <- SQ; ring [I2]). exact D0.
Qed.
