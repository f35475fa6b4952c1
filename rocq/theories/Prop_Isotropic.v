(** * C62: the isotropic surface Green's function *)

From Coq Require Import Reals Lra Lia Psatz.
From Coquelicot Require Import Coquelicot.
From Verif Require Import Py GreenwoodTripp_Model GreenwoodTripp_Proofs Isotropic_Model Isotropic_Proofs Elasticity_Spec Isotropic_Field.
From Coq Require Import List.
Import ListNotations.
Local Open Scope R_scope.

(** ** Green's function and elastic half space

    For every force amplitude [f] there is an elastic field of the isotropic
    half space [z >= 0] that decays with depth, carries the force wave [f] on
    the surface, and whose surface displacement is the wave with the amplitude
    [G f]. *)
Theorem C62_half_space : forall mu nu qx qy (f : nat -> C),
  0 < mu -> nu <> 1 / 2 -> nu <> 3 / 4 -> qx <> 0 \/ qy <> 0 ->
  exists u : nat -> field3,
    half_space_solution (2 * mu * nu / (1 - 2 * nu)) mu u (fun i x y => wave qx qy (f i) x y) /\
    forall i x y, (i < 3)%nat ->
      u i x y 0 = wave qx qy
        (at_ (iso_greens mu nu qx qy) i 0 * f 0%nat + at_ (iso_greens mu nu qx qy) i 1 * f 1%nat
         + at_ (iso_greens mu nu qx qy) i 2 * f 2%nat)%C x y.
Proof.
  intros mu nu qx qy f Hm H1 H2 Hq. exists (usol mu nu qx qy f). split.
  - apply usol_solution; assumption.
  - intros i x y Hi. apply usol_surface; assumption.
Qed.
Print Assumptions C62_half_space.

(** The response to normal loads is the one of the periodic half space with the
    contact modulus [E* = E / (1 - nu^2)], [E = 2 mu (1 + nu)]. *)
Theorem C62_normal : forall mu nu qx qy, 0 < mu -> -1 < nu < 1 -> qx <> 0 \/ qy <> 0 ->
  let Es := 2 * mu * (1 + nu) / (1 - nu ^ 2) in
  at_ (iso_greens mu nu qx qy) 2 2 = RtoC (/ (Es * sqrt (qx ^ 2 + qy ^ 2) / 2)).
Proof.
  intros mu nu qx qy Hm Hn Hq Es. rewrite (G22 mu nu qx qy ltac:(lra) Hq). unfold RtoC. f_equal. unfold Es.
  pose proof (q_pos qx qy Hq). field. repeat split; try lra. nra.
Qed.
Print Assumptions C62_normal.

(** ** Symmetries *)
Theorem C62_symmetries : forall mu nu qx qy, mu <> 0 -> qx <> 0 \/ qy <> 0 ->
  (forall i j, (i < 3)%nat -> (j < 3)%nat ->
     at_ (iso_greens mu nu qx qy) j i = Cconj (at_ (iso_greens mu nu qx qy) i j) /\
     at_ (iso_greens mu nu (- qx) (- qy)) i j = Cconj (at_ (iso_greens mu nu qx qy) i j)) /\
  (forall k i j, 0 < k -> (i < 3)%nat -> (j < 3)%nat ->
     at_ (iso_greens mu nu (k * qx) (k * qy)) i j = (at_ (iso_greens mu nu qx qy) i j / RtoC k)%C).
Proof.
  intros mu nu qx qy Hm Hq. pose proof (q_pos qx qy Hq) as Q.
  assert (Hq' : - qx <> 0 \/ - qy <> 0) by (destruct Hq; [left|right]; lra).
  assert (EQ : sqrt ((- qx) ^ 2 + (- qy) ^ 2) = sqrt (qx ^ 2 + qy ^ 2)) by (f_equal; ring).
  split.
  - intros i j Hi Hj. unfold Cconj.
    destruct (lt3 i Hi) as [X|[X|X]]; destruct (lt3 j Hj) as [Y|[Y|Y]]; subst i j;
      rewrite ?(G00 mu nu) by assumption; rewrite ?(G01 mu nu) by assumption; rewrite ?(G02 mu nu) by assumption;
      rewrite ?(G10 mu nu) by assumption; rewrite ?(G11 mu nu) by assumption; rewrite ?(G12 mu nu) by assumption;
      rewrite ?(G20 mu nu) by assumption; rewrite ?(G21 mu nu) by assumption; rewrite ?(G22 mu nu) by assumption;
      rewrite ?EQ; split; apply injective_projections; cbn [fst snd]; field; repeat split; lra.
  - intros k i j Hk Hi Hj.
    assert (Hqk : k * qx <> 0 \/ k * qy <> 0) by (destruct Hq; [left|right]; apply Rmult_integral_contrapositive_currified; lra).
    assert (EK : sqrt ((k * qx) ^ 2 + (k * qy) ^ 2) = k * sqrt (qx ^ 2 + qy ^ 2)).
    { replace ((k * qx) ^ 2 + (k * qy) ^ 2) with (k ^ 2 * (qx ^ 2 + qy ^ 2)) by ring.
      rewrite sqrt_mult_alt by nra. rewrite sqrt_pow2 by lra. reflexivity. }
    destruct (lt3 i Hi) as [X|[X|X]]; destruct (lt3 j Hj) as [Y|[Y|Y]]; subst i j;
      rewrite ?(G00 mu nu) by assumption; rewrite ?(G01 mu nu) by assumption; rewrite ?(G02 mu nu) by assumption;
      rewrite ?(G10 mu nu) by assumption; rewrite ?(G11 mu nu) by assumption; rewrite ?(G12 mu nu) by assumption;
      rewrite ?(G20 mu nu) by assumption; rewrite ?(G21 mu nu) by assumption; rewrite ?(G22 mu nu) by assumption;
      rewrite ?EK; clear EK Hqk Hq' EQ; set (q := sqrt (qx ^ 2 + qy ^ 2)) in *; clearbody q;
      apply injective_projections; unfold Cdiv, Cinv, Cmult, RtoC; cbn [fst snd]; field; repeat split; nra.
Qed.
Print Assumptions C62_symmetries.

(** Positive definite: any force does positive work. *)
Theorem C62_positive : forall mu nu qx qy (v : nat -> C), 0 < mu -> nu < 3 / 4 -> qx <> 0 \/ qy <> 0 ->
  let G := iso_greens mu nu qx qy in
  let Gv := fun i => (at_ G i 0 * v 0%nat + at_ G i 1 * v 1%nat + at_ G i 2 * v 2%nat)%C in
  let work := (Cconj (v 0%nat) * Gv 0%nat + Cconj (v 1%nat) * Gv 1%nat + Cconj (v 2%nat) * Gv 2%nat)%C in
  snd work = 0 /\ 0 <= fst work /\
  (fst work = 0 -> v 0%nat = RtoC 0 /\ v 1%nat = RtoC 0 /\ v 2%nat = RtoC 0).
Proof.
  intros mu nu qx qy v Hm Hn Hq G Gv work. pose proof (q_pos qx qy Hq) as Q. pose proof (q_sq qx qy Hq) as E.
  pose proof (q2_pos qx qy Hq) as Q2.
  unfold work, Gv, G. rewrite (G00 mu nu), (G01 mu nu), (G02 mu nu), (G10 mu nu), (G11 mu nu), (G12 mu nu), (G20 mu nu), (G21 mu nu), (G22 mu nu) by (lra || assumption).
  destruct (v 0%nat) as [a0 b0]. destruct (v 1%nat) as [a1 b1]. destruct (v 2%nat) as [a2 b2].
  unfold Cconj, Cplus, Cmult. cbn [fst snd]. set (q := sqrt (qx ^ 2 + qy ^ 2)) in *. clearbody q.
  assert (EX : qx ^ 2 = q ^ 2 - qy ^ 2) by lra.
  (* components along and across the wavevector *)
  set (la := (qx * a0 + qy * a1) / q). set (lb := (qx * b0 + qy * b1) / q).
  set (ta := (- qy * a0 + qx * a1) / q). set (tb := (- qy * b0 + qx * b1) / q).
  split; [field [EX]; split; lra|].
  match goal with |- 0 <= ?w /\ _ => assert (EW : w = ((1 - nu) * (la ^ 2 + lb ^ 2 + a2 ^ 2 + b2 ^ 2) + (ta ^ 2 + tb ^ 2)
    + (1 - 2 * nu) * (lb * a2 - la * b2)) / (mu * q)) end.
  { unfold la, lb, ta, tb. field [EX]. split; lra. }
  rewrite EW.
  assert (ES : (1 - nu) * (la ^ 2 + lb ^ 2 + a2 ^ 2 + b2 ^ 2) + (ta ^ 2 + tb ^ 2) + (1 - 2 * nu) * (lb * a2 - la * b2)
    = (3 / 4 - nu) * ((la - b2) ^ 2 + (lb + a2) ^ 2) + / 4 * ((la + b2) ^ 2 + (lb - a2) ^ 2) + (ta ^ 2 + tb ^ 2)) by field.
  rewrite ES. clear ES EW work Gv G.
  assert (SS : forall x y : R, 0 <= x ^ 2 + y ^ 2) by (intros x y; pose proof (pow2_ge_0 x); pose proof (pow2_ge_0 y); lra).
  assert (P1 : 0 <= (3 / 4 - nu) * ((la - b2) ^ 2 + (lb + a2) ^ 2)) by (apply Rmult_le_pos; [lra|apply SS]).
  pose proof (SS (la + b2) (lb - a2)) as P2. pose proof (SS ta tb) as P3.
  assert (MQ : 0 < mu * q) by (apply Rmult_lt_0_compat; assumption).
  split; [apply Rdiv_le_0_compat; lra|].
  intros Z. assert (Z' : (3 / 4 - nu) * ((la - b2) ^ 2 + (lb + a2) ^ 2) + / 4 * ((la + b2) ^ 2 + (lb - a2) ^ 2) + (ta ^ 2 + tb ^ 2) = 0).
  { apply Rmult_integral in Z. destruct Z as [Z|Z]; [exact Z|]. exfalso. revert Z. apply Rinv_neq_0_compat. lra. }
  assert (Z1 : (3 / 4 - nu) * ((la - b2) ^ 2 + (lb + a2) ^ 2) = 0) by lra.
  assert (Z2 : (la + b2) ^ 2 + (lb - a2) ^ 2 = 0) by lra. assert (Z3 : ta ^ 2 + tb ^ 2 = 0) by lra.
  apply Rmult_integral in Z1. destruct Z1 as [Z1|Z1]; [lra|].
  assert (SQ : forall x y, x ^ 2 + y ^ 2 = 0 -> x = 0 /\ y = 0).
  { intros x y H. apply Rplus_sqr_eq_0. unfold Rsqr. rewrite <- H. ring. }
  destruct (SQ _ _ Z1) as [A1 A2]. destruct (SQ _ _ Z2) as [A3 A4]. destruct (SQ _ _ Z3) as [T1 T2].
  assert (LA : la = 0) by lra. assert (LB : lb = 0) by lra. assert (B2 : b2 = 0) by lra. assert (AA2 : a2 = 0) by lra.
  assert (R0 : a0 = (qx * la - qy * ta) / q) by (unfold la, ta; field [EX]; lra).
  assert (R1 : a1 = (qy * la + qx * ta) / q) by (unfold la, ta; field [EX]; lra).
  assert (S0 : b0 = (qx * lb - qy * tb) / q) by (unfold lb, tb; field [EX]; lra).
  assert (S1 : b1 = (qy * lb + qx * tb) / q) by (unfold lb, tb; field [EX]; lra).
  rewrite LA, T1 in R0, R1. rewrite LB, T2 in S0, S1.
  unfold RtoC. rewrite R0, R1, S0, S1, AA2, B2. repeat split; apply injective_projections; cbn [fst snd]; unfold Rdiv; ring.
Qed.
Print Assumptions C62_positive.

(** ** Stiffness *)
Theorem C62_inverse : forall mu nu qx qy, mu <> 0 -> nu <> 3 / 4 ->
  / 10 ^ 6 <= Rabs qx \/ / 10 ^ 6 <= Rabs qy ->
  exists K, iso_stiffness mu nu qx qy = Ret K /\
    (forall i j, (i < 3)%nat -> (j < 3)%nat ->
       (at_ (iso_greens mu nu qx qy) i 0 * at_ K 0 j + at_ (iso_greens mu nu qx qy) i 1 * at_ K 1 j
        + at_ (iso_greens mu nu qx qy) i 2 * at_ K 2 j)%C = (if Nat.eqb i j then RtoC 1 else RtoC 0) /\
       (at_ K i 0 * at_ (iso_greens mu nu qx qy) 0 j + at_ K i 1 * at_ (iso_greens mu nu qx qy) 1 j
        + at_ K i 2 * at_ (iso_greens mu nu qx qy) 2 j)%C = (if Nat.eqb i j then RtoC 1 else RtoC 0) /\
       at_ K j i = Cconj (at_ K i j)).
Proof.
  intros mu nu qx qy Hm Hn Hq.
  assert (P6 : 0 < / 10 ^ 6) by (apply Rinv_0_lt_compat; lra).
  assert (H0 : qx <> 0 \/ qy <> 0).
  { destruct Hq as [H|H]; [left|right]; intros Z; rewrite Z, Rabs_R0 in H; lra. }
  assert (ST : iso_stiffness mu nu qx qy = inv3 (iso_greens mu nu qx qy)).
  { unfold iso_stiffness. destruct (Rlt_dec (Rabs qx) (/ 10 ^ 6)); destruct (Rlt_dec (Rabs qy) (/ 10 ^ 6)); cbn [andb]; try reflexivity. lra. }
  destruct (inv3_ok _ (G_det_ne mu nu qx qy Hm H0 Hn)) as [K EK]. exists K. rewrite ST. split; [exact EK|].
  intros i j Hi Hj. destruct (inv3_spec _ _ EK i j Hi Hj) as [I1 I2]. split; [exact I1|]. split; [exact I2|].
  pose (KH := mat_of (fun a b => Cconj (at_ K b a))).
  assert (L : at_ KH i j = at_ K i j).
  { apply (left_right_inv KH (iso_greens mu nu qx qy) K); [| |exact Hi|exact Hj].
    - intros a b Ha Hb. unfold mmul, KH. rewrite !at_mat_of by lia.
      destruct (C62_symmetries mu nu qx qy Hm H0) as [SY _].
      transitivity (Cconj (mmul (iso_greens mu nu qx qy) K b a)).
      + assert (CP : forall a b, Cconj (a + b)%C = (Cconj a + Cconj b)%C) by (intros [? ?] [? ?]; unfold Cconj, Cplus; cbn [fst snd]; f_equal; ring).
        assert (CM : forall a b, Cconj (a * b)%C = (Cconj a * Cconj b)%C) by (intros [? ?] [? ?]; unfold Cconj, Cmult; cbn [fst snd]; f_equal; ring).
        unfold mmul. rewrite !CP, !CM.
        rewrite (proj1 (SY b 0%nat Hb ltac:(lia))), (proj1 (SY b 1%nat Hb ltac:(lia))), (proj1 (SY b 2%nat Hb ltac:(lia))). ring.
      + rewrite (proj1 (inv3_spec _ _ EK b a Hb Ha)). unfold delta. rewrite Nat.eqb_sym.
        destruct (Nat.eqb a b); unfold Cconj, RtoC; cbn [fst snd]; f_equal; ring.
    - intros a b Ha Hb. apply (proj1 (inv3_spec _ _ EK a b Ha Hb)). }
  unfold KH in L. rewrite at_mat_of in L by assumption. rewrite <- L. symmetry. unfold Cconj; destruct (at_ K j i); cbn. f_equal. ring.
Qed.
Print Assumptions C62_inverse.

(** Finding: an absolute threshold.  A wavevector that is not zero but has
    components below 10^-6, in whatever unit, is given no stiffness at all,
    although its Green's function has an inverse. *)
Theorem C62_small_wavevector_refuted : forall mu nu qx qy, mu <> 0 -> nu <> 3 / 4 ->
  qx <> 0 \/ qy <> 0 -> Rabs qx < / 10 ^ 6 -> Rabs qy < / 10 ^ 6 ->
  (exists K, iso_stiffness mu nu qx qy = Ret K /\ forall i j, (i < 3)%nat -> (j < 3)%nat -> at_ K i j = RtoC 0) /\
  (exists N, forall i j, (i < 3)%nat -> (j < 3)%nat ->
     mmul (iso_greens mu nu qx qy) N i j = if Nat.eqb i j then RtoC 1 else RtoC 0).
Proof.
  intros mu nu qx qy Hm Hn Hq H1 H2. split.
  - eexists. unfold iso_stiffness. destruct (Rlt_dec (Rabs qx) (/ 10 ^ 6)); [|contradiction].
    destruct (Rlt_dec (Rabs qy) (/ 10 ^ 6)); [|contradiction]. cbn [andb]. split; [reflexivity|].
    intros i j Hi Hj. apply at_mat_of; assumption.
  - destruct (inv3_ok _ (G_det_ne mu nu qx qy Hm Hq Hn)) as [N EN]. exists N.
    intros i j Hi Hj. apply (proj1 (inv3_spec _ _ EN i j Hi Hj)).
Qed.
Print Assumptions C62_small_wavevector_refuted.

(** The zero wavevector has zero stiffness. *)
Theorem C62_zero : forall mu nu, exists K, iso_stiffness mu nu 0 0 = Ret K /\
  forall i j, (i < 3)%nat -> (j < 3)%nat -> at_ K i j = RtoC 0.
Proof.
  intros mu nu. assert (P6 : 0 < / 10 ^ 6) by (apply Rinv_0_lt_compat; lra).
  eexists. unfold iso_stiffness. rewrite Rabs_R0. destruct (Rlt_dec 0 (/ 10 ^ 6)); [|contradiction].
  cbn [andb]. split; [reflexivity|]. intros i j Hi Hj. apply at_mat_of; assumption.
Qed.
Print Assumptions C62_zero.

(** Arrays: one matrix per pair of components. *)
Theorem C62_arrays : forall mu nu qx qy, length qx = length qy -> mu <> 0 -> nu <> 3 / 4 ->
  (length (iso_greens_array mu nu qx qy) = length qx /\
   forall k, (k < length qx)%nat ->
     nth k (iso_greens_array mu nu qx qy) [] = iso_greens mu nu (nth k qx 0) (nth k qy 0)) /\
  exists l, iso_stiffness_array mu nu qx qy = Ret l /\ length l = length qx /\
    forall k, (k < length qx)%nat -> iso_stiffness mu nu (nth k qx 0) (nth k qy 0) = Ret (nth k l []).
Proof.
  intros mu nu qx. unfold iso_greens_array, iso_stiffness_array.
  induction qx as [|x qx IH]; intros [|y qy] L Hm Hn; try discriminate.
  - split; [split; [reflexivity|intros k Hk; cbn in Hk; lia]|]. exists []. split; [reflexivity|]. split; [reflexivity|].
    intros k Hk. cbn in Hk. lia.
  - injection L as L. destruct (IH qy L Hm Hn) as [[L1 G1] [l [E [L2 S2]]]]. split.
    + split; [cbn; rewrite L1; reflexivity|]. intros [|k] Hk; [reflexivity|]. cbn [map2 nth]. apply G1. cbn in Hk. lia.
    + cbn [map2 seq_res].
      assert (exists K, iso_stiffness mu nu x y = Ret K) as [K EK].
      { destruct (Rlt_le_dec (Rabs x) (/ 10 ^ 6)) as [Hx|Hx].
        - destruct (Rlt_le_dec (Rabs y) (/ 10 ^ 6)) as [Hy|Hy].
          + eexists. unfold iso_stiffness. destruct (Rlt_dec (Rabs x) (/ 10 ^ 6)); [|contradiction].
            destruct (Rlt_dec (Rabs y) (/ 10 ^ 6)); [|contradiction]. reflexivity.
          + destruct (C62_inverse mu nu x y Hm Hn (or_intror Hy)) as [K [EK _]]. exists K. exact EK.
        - destruct (C62_inverse mu nu x y Hm Hn (or_introl Hx)) as [K [EK _]]. exists K. exact EK. }
      rewrite EK, E. cbn [bind]. exists (K :: l). split; [reflexivity|]. split; [cbn; rewrite L2; reflexivity|].
      intros [|k] Hk; [exact EK|]. cbn [nth]. apply S2. cbn in Hk. lia.
Qed.
Print Assumptions C62_arrays.

(** A concrete wavevector: (3, 4), unit shear modulus, Poisson number 0. *)
Example C62_nonvacuous :
  at_ (iso_greens 1 0 3 4) 2 2 = RtoC (/ 5) /\ at_ (iso_greens 1 0 3 4) 0 2 = (0, 3 / 50) /\
  (exists K, iso_stiffness 1 0 3 4 = Ret K).
Proof.
  assert (S5 : sqrt (3 ^ 2 + 4 ^ 2) = 5).
  { replace (3 ^ 2 + 4 ^ 2) with (5 ^ 2) by ring. apply sqrt_pow2. lra. }
  assert (H0 : 3 <> 0 \/ 4 <> 0) by (left; lra).
  split; [rewrite (G22 1 0 3 4 ltac:(lra) H0), S5; unfold RtoC; f_equal; field|].
  split; [rewrite (G02 1 0 3 4 ltac:(lra) H0), S5; f_equal; field|].
  destruct (C62_inverse 1 0 3 4 ltac:(lra) ltac:(lra)) as [K [E _]]; [|exists K; exact E].
  left. rewrite Rabs_right by lra. apply (Rmult_le_reg_r (10 ^ 6)); [lra|]. rewrite Rinv_l; lra.
Qed.
