(** * The stresses below the surface *)

From Coq Require Import Reals Lra Lia Psatz.
From Coquelicot Require Import Coquelicot.
From Verif Require Import Hertz_Model Calc Hertz_Proofs Hertz_Surface.
Local Open Scope R_scope.

(** ** The locals of the Hamilton expressions are oblate spheroidal coordinates *)
Section Spheroidal.
  Variables (q z : R).
  Hypotheses (Hq : 0 <= q) (Hz : 0 <= z).
  Local Notation A := (hA q z).
  Local Notation S := (hS q z).
  Local Notation M := (hM q z).
  Local Notation N := (hN q z).

  Lemma S_ge0 : 0 <= S.
  Proof. apply sqrt_pos. Qed.
  Lemma S_sq : S * S = A ^ 2 + 4 * z ^ 2.
  Proof. apply sqrt_sqrt. nra. Qed.
  Lemma S_abs : Rabs A <= S.
  Proof.
    destruct (Rle_lt_dec (Rabs A) S) as [L|L]; [exact L|]. exfalso.
    pose proof S_ge0. pose proof S_sq as E. pose proof (Rabs_pos A).
    assert (Rabs A * Rabs A = A ^ 2) by (rewrite <- Rabs_mult; rewrite Rabs_pos_eq by nra; ring).
    assert (S * S < Rabs A * Rabs A) by nra. nra.
  Qed.
  Lemma M_ge0 : 0 <= M. Proof. apply sqrt_pos. Qed.
  Lemma N_ge0 : 0 <= N. Proof. apply sqrt_pos. Qed.
  Lemma M_sq : M * M = (S + A) / 2.
  Proof. apply sqrt_sqrt. pose proof S_abs. pose proof (Rle_abs (- A)). rewrite Rabs_Ropp in H0. lra. Qed.
  Lemma N_sq : N * N = (S - A) / 2.
  Proof. apply sqrt_sqrt. pose proof S_abs. pose proof (Rle_abs A). lra. Qed.
  Lemma MN : M * N = z.
  Proof.
    pose proof M_ge0. pose proof N_ge0. apply sq_inj; [nra|exact Hz|].
    replace (M * N * (M * N)) with ((M * M) * (N * N)) by ring. rewrite M_sq, N_sq.
    replace ((S + A) / 2 * ((S - A) / 2)) with ((S * S - A ^ 2) / 4) by field. rewrite S_sq. field.
  Qed.
  Lemma S_MN : S = M ^ 2 + N ^ 2.
  Proof. replace (M ^ 2) with (M * M) by ring. replace (N ^ 2) with (N * N) by ring. rewrite M_sq, N_sq. field. Qed.
  Lemma A_MN : A = M ^ 2 - N ^ 2.
  Proof. replace (M ^ 2) with (M * M) by ring. replace (N ^ 2) with (N * N) by ring. rewrite M_sq, N_sq. field. Qed.
  Lemma q_MN : q = (1 + M ^ 2) * (1 - N ^ 2).
  Proof.
    replace ((1 + M ^ 2) * (1 - N ^ 2)) with (1 + (M ^ 2 - N ^ 2) - (M * N) * (M * N)) by ring.
    rewrite <- A_MN, MN. unfold hA. ring.
  Qed.
  Lemma N_le1 : N <= 1.
  Proof.
    pose proof q_MN as E. pose proof N_ge0. pose proof (pow2_ge_0 M).
    destruct (Rle_lt_dec N 1) as [L|L]; [exact L|]. exfalso. assert (1 - N ^ 2 < 0) by nra. nra.
  Qed.
  Lemma N_lt1 : 0 < q -> N < 1.
  Proof.
    intros H. pose proof N_le1 as L. destruct L as [L|L]; [exact L|]. exfalso.
    pose proof q_MN as E. rewrite L in E. lra.
  Qed.
  (** Only the contact edge is singular. *)
  Lemma S_gt0 : (q <> 1 \/ z <> 0) -> 0 < S.
  Proof.
    intros H. apply sqrt_lt_R0. destruct (Req_dec z 0) as [E|E].
    - destruct H as [H|H]; [|lra]. subst z. unfold hA.
      assert (q - 1 <> 0) by lra. assert (0 < (q - 1) * (q - 1)) by (apply Rlt_0_sqr; assumption). nra.
    - assert (0 < z * z) by (apply Rlt_0_sqr; assumption). nra.
  Qed.
  Lemma edge_S : q = 1 -> z = 0 -> S = 0 /\ M = 0 /\ N = 0.
  Proof.
    intros -> ->.
    assert (E : hS 1 0 = 0).
    { unfold hS, hA. replace ((1 + 0 ^ 2 - 1) ^ 2 + 4 * 0 ^ 2) with 0 by ring. apply sqrt_0. }
    unfold hM, hN. rewrite E. unfold hA. replace ((0 + (1 + 0 ^ 2 - 1)) / 2) with 0 by field.
    replace ((0 - (1 + 0 ^ 2 - 1)) / 2) with 0 by field. rewrite sqrt_0. auto.
  Qed.
End Spheroidal.

(** ** The Huber expressions in these coordinates *)
Section Huber.
  Variables (nu r z : R).
  Hypotheses (Hr : 0 <= r) (Hz : 0 <= z).
  Let q := r ^ 2.
  Let M := hM q z.
  Let N := hN q z.
  Let S := hS q z.

  Lemma q_ge0 : 0 <= q. Proof. apply pow2_ge_0. Qed.
  Lemma huber_u : (r ^ 2 + z ^ 2 - 1) / 2 + sqrt ((r ^ 2 + z ^ 2 - 1) ^ 2 / 4 + z ^ 2) = M ^ 2.
  Proof.
    assert (E : sqrt ((r ^ 2 + z ^ 2 - 1) ^ 2 / 4 + z ^ 2) = S / 2).
    { apply sqrt_eq; [pose proof (S_ge0 q z); unfold S; lra|].
      replace (S / 2 * (S / 2)) with (S * S / 4) by field. unfold S. rewrite S_sq. unfold hA, q. field. }
    rewrite E. replace (M ^ 2) with (M * M) by ring. unfold M. rewrite M_sq. unfold hA, S, q. field.
  Qed.

  Lemma sqrt_1M : 0 < sqrt (1 + M ^ 2) /\ sqrt (1 + M ^ 2) * sqrt (1 + M ^ 2) = 1 + M ^ 2.
  Proof. pose proof (pow2_ge_0 M). split; [apply sqrt_lt_R0; lra|apply sqrt_sqrt; lra]. Qed.
  Lemma huber_r1 : (r / sqrt (1 + M ^ 2)) ^ 2 = 1 - N ^ 2.
  Proof.
    destruct sqrt_1M as [P Q]. pose proof (q_MN q z Hz) as E. fold M N in E. pose proof (pow2_ge_0 M).
    replace ((r / sqrt (1 + M ^ 2)) ^ 2) with (q / (sqrt (1 + M ^ 2) * sqrt (1 + M ^ 2))) by (unfold q; field; lra).
    rewrite Q. rewrite E at 1. field. lra.
  Qed.
  Lemma huber_z1 : sqrt (1 - (r / sqrt (1 + M ^ 2)) ^ 2) = N.
  Proof. rewrite huber_r1. apply sqrt_eq; [apply N_ge0|]. ring. Qed.

  (** Away from the axis and the edge. *)
  Lemma stress1_MN : 0 < r -> 0 < S ->
    let s := stress1 nu r z in
    let o := (1 - N ^ 3) / (1 - N ^ 2) in
    c_tt s = - ((1 - 2 * nu) / 3 * 1 / (1 + M ^ 2) * o
                + N * (2 * nu + (1 - nu) * M ^ 2 / (1 + M ^ 2) - (1 + nu) * (M * arctan2_1 M)))
    /\ c_rr s = (1 - 2 * nu) / 3 * 1 / (1 + M ^ 2) * o + N * (N ^ 2 / S)
                + N * ((1 - nu) * M ^ 2 / (1 + M ^ 2) + (1 + nu) * (M * arctan2_1 M) - 2)
    /\ c_zz s = - (N * (N ^ 2 / S))
    /\ c_rz s = - (r * (N ^ 2 / S) * M / (1 + M ^ 2)).
  Proof.
    intros Hr0 HS s o.
    assert (HM : sqrt (M ^ 2) = M) by (apply sqrt_eq; [apply M_ge0|ring]).
    assert (ES : M ^ 2 + N ^ 2 = S) by (symmetry; apply S_MN).
    destruct sqrt_1M as [P Q].
    assert (R1 : 0 < r / sqrt (1 + M ^ 2)) by (apply Rdiv_lt_0_compat; assumption).
    assert (ZA : z_arctan_inv M = M * arctan2_1 M) by (apply z_arctan_inv_eq; apply M_ge0).
    subst s. unfold stress1. rewrite huber_u, HM, ZA, huber_z1, huber_r1, ES.
    destruct (Rlt_dec 0 (r / sqrt (1 + M ^ 2))) as [_|B]; [|contradiction].
    destruct (Rlt_dec 0 S) as [_|B]; [|contradiction]. cbn [c_tt c_rr c_zz c_rz].
    fold o. repeat split.
    - rewrite Ropp_involutive. reflexivity.
    - replace (r / sqrt (1 + M ^ 2) * (N ^ 2 / S) * M / sqrt (1 + M ^ 2))
        with (r * (N ^ 2 / S) * M / (sqrt (1 + M ^ 2) * sqrt (1 + M ^ 2))) by (field; split; lra).
      rewrite Q. reflexivity.
  Qed.
End Huber.

(** ** The two expressions agree *)

(** Components of a cylindrical tensor in the direction [(x, y)], times [r^2] or [r]. *)
Definition rotates (x y r : R) (c : cyl) (t : cart) : Prop :=
  r ^ 2 * t_xx t = x ^ 2 * c_rr c + y ^ 2 * c_tt c
  /\ r ^ 2 * t_yy t = y ^ 2 * c_rr c + x ^ 2 * c_tt c
  /\ r ^ 2 * t_xy t = x * y * (c_rr c - c_tt c)
  /\ t_zz t = c_zz c
  /\ r * t_xz t = x * c_rz c
  /\ r * t_yz t = y * c_rz c.

Lemma sqrt_pow2_pos : forall q, 0 < q -> 0 < sqrt q /\ sqrt q ^ 2 = q.
Proof. intros q H. split; [apply sqrt_lt_R0; exact H|]. replace (sqrt q ^ 2) with (sqrt q * sqrt q) by ring. apply sqrt_sqrt. lra. Qed.

Lemma huber_hamilton : forall nu x y z,
  0 < x ^ 2 + y ^ 2 -> 0 <= z -> (x ^ 2 + y ^ 2 <> 1 \/ z <> 0) ->
  rotates x y (sqrt (x ^ 2 + y ^ 2)) (stress1 nu (sqrt (x ^ 2 + y ^ 2)) z) (stress_Cartesian1 nu x y z).
Proof.
  intros nu x y z Hq Hz Hs. unfold stress_Cartesian1.
  destruct (Rlt_dec 0 (x ^ 2 + y ^ 2)) as [_|B]; [|contradiction].
  destruct (sqrt_pow2_pos _ Hq) as [Hr Er]. set (r := sqrt (x ^ 2 + y ^ 2)) in *.
  set (q := x ^ 2 + y ^ 2) in *.
  pose proof (S_gt0 q z Hz Hs) as HS.
  destruct (stress1_MN nu r z Hz Hr) as (E1 & E2 & E3 & E4); [rewrite Er; exact HS|].
  rewrite Er in *. clear Hs.
  pose proof (MN q z Hz) as Ez. pose proof (S_MN q z) as ES. pose proof (A_MN q z) as EA.
  pose proof (q_MN q z Hz) as Eq. pose proof (M_ge0 q z) as HM. pose proof (N_ge0 q z) as HN.
  pose proof (N_lt1 q z ltac:(lra) Hz Hq) as HN1.
  set (phi := arctan2_1 (hM q z)) in *.
  set (M := hM q z) in *. set (N := hN q z) in *. set (S := hS q z) in *. set (A := hA q z) in *.
  assert (Ey : y ^ 2 = (1 + M ^ 2) * (1 - N ^ 2) - x ^ 2) by (unfold q in Eq; lra).
  clearbody M N S A phi r q.
  assert (P1 : 1 + M ^ 2 <> 0) by nra. assert (P2 : 1 - N ^ 2 <> 0) by nra.
  assert (P3 : M ^ 2 + N ^ 2 <> 0) by lra. assert (P4 : 1 + N <> 0) by lra. assert (P5 : 1 - N <> 0) by lra.
  set (G := M ^ 2 - N ^ 2 + z * M - N). set (H := 2 * M * N + M + z * N).
  assert (GH : H / (G ^ 2 + H ^ 2) = M / ((M ^ 2 + N ^ 2) * (1 + M ^ 2))).
  { assert (EH : H = M * (1 + N) ^ 2) by (unfold H; rewrite <- Ez; ring).
    assert (EG : G ^ 2 + H ^ 2 = (1 + N) ^ 2 * ((M ^ 2 + N ^ 2) * (1 + M ^ 2)))
      by (unfold G, H; rewrite <- Ez; ring).
    rewrite EG, EH. field. repeat split; assumption. }
  unfold rotates, normal_formula. cbn [t_xx t_yy t_zz t_yz t_xz t_xy]. fold G H.
  rewrite E1, E2, E3, E4, Er. clear E1 E2 E3 E4.
  assert (T : forall w, w * z * H / (G ^ 2 + H ^ 2) = w * z * (M / ((M ^ 2 + N ^ 2) * (1 + M ^ 2)))).
  { intros w. rewrite <- GH. unfold Rdiv. ring. }
  rewrite !T. clear T GH. clearbody G H. subst z A S. 
  repeat split.
  - rewrite Ey, Eq. field. repeat split; assumption.
  - rewrite Ey, Eq. field. repeat split; assumption.
  - rewrite Eq. field. repeat split; assumption.
  - field. repeat split; assumption.
  - field. repeat split; assumption.
  - field. repeat split; assumption.
Qed.
