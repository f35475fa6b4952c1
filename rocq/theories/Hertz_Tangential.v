(** * The field of tangential loading near the axis *)

From Coq Require Import Reals Lra Lia Psatz.
From Coquelicot Require Import Coquelicot.
From Verif Require Import Hertz_Model Calc Hertz_Proofs Hertz_Surface Hertz_Interior Hertz_Equilibrium Hertz_Axis.
Local Open Scope R_scope.

(** Every component is a prefactor (1, x, y or x y) times [f0 + x^2/r^2 f1] with
    [f0], [f1] regular on the axis. *)
Definition gD (M N : R) : R := / ((1 + M ^ 2) ^ 2) * / ((1 + N) ^ 2).
Definition gE (M N : R) : R := M * M ^ 2 * / (1 + M ^ 2) * / (M ^ 2 + N ^ 2).
Definition gxx0 (nu M N : R) : R :=
  - (nu * / 4 + 1) * (PI * / 2 - atan M)
  + M * gD M N * ((1) + (7* / 4) * nu + M ^ 2 + (1* / 4) * M ^ 2 * nu + (4) * N - (1* / 2) * N * nu + (2) * N * M ^ 2 + (1* / 2) * N * M ^ 2 * nu + (2) * N ^ 2 - (1* / 4) * N ^ 2 * nu + N ^ 2 * M ^ 2 + (1* / 4) * N ^ 2 * M ^ 2 * nu).
Definition gxx1 (nu M N : R) : R :=
  M * gD M N * ((1) - (2) * nu + M ^ 2 - (2* / 3) * N + (4* / 3) * N * nu + (2) * N * M ^ 2 - (1* / 3) * N ^ 2 + (2* / 3) * N ^ 2 * nu + N ^ 2 * M ^ 2) - gE M N.
Definition gyy0 (nu M N : R) : R :=
  - (3 * nu * / 4) * (PI * / 2 - atan M)
  + M * gD M N * ((1) - (3* / 4) * nu + M ^ 2 + (3* / 4) * M ^ 2 * nu + (5* / 2) * N * nu + (2) * N * M ^ 2 + (3* / 2) * N * M ^ 2 * nu + (5* / 4) * N ^ 2 * nu + N ^ 2 * M ^ 2 + (3* / 4) * N ^ 2 * M ^ 2 * nu) - gE M N.
Definition gyy1 (nu M N : R) : R :=
  M * gD M N * ((-1) + (2) * nu - M ^ 2 + (2* / 3) * N - (4* / 3) * N * nu - (2) * N * M ^ 2 + (1* / 3) * N ^ 2 - (2* / 3) * N ^ 2 * nu - N ^ 2 * M ^ 2) + gE M N.
Definition gxy0 (nu M N : R) : R :=
  ((nu * / 2 - 1) * / 2) * (PI * / 2 - atan M)
  + M * gD M N * ((1* / 2) + (1* / 4) * nu + (1* / 2) * M ^ 2 - (1* / 4) * M ^ 2 * nu + (5* / 3) * N - (5* / 6) * N * nu + N * M ^ 2 - (1* / 2) * N * M ^ 2 * nu + (5* / 6) * N ^ 2 - (5* / 12) * N ^ 2 * nu + (1* / 2) * N ^ 2 * M ^ 2 - (1* / 4) * N ^ 2 * M ^ 2 * nu).
Definition gxy1 (nu M N : R) : R :=
  M * gD M N * ((1) - (2) * nu + M ^ 2 - (2* / 3) * N + (4* / 3) * N * nu + (2) * N * M ^ 2 - (1* / 3) * N ^ 2 + (2* / 3) * N ^ 2 * nu + N ^ 2 * M ^ 2) - gE M N.
Definition gxz0 (M N : R) : R :=
  3 * / 2 * (M * N) * (PI * / 2 - atan M) - N * (3 * / 2 * M ^ 2 + 1) * / (1 + M ^ 2).
Definition gxz1 (M N : R) : R := N * M ^ 2 * / (1 + M ^ 2) - M ^ 2 * N * / (M ^ 2 + N ^ 2).
Definition gzz0 (M N : R) : R := - (M * N ^ 2 * / (M ^ 2 + N ^ 2) * / (1 + M ^ 2)).
Definition gyz0 (M N : R) : R := - (M ^ 2 * N * / (M ^ 2 + N ^ 2) * / ((1 + M ^ 2) ^ 2)).

Section Regular.
  Variables (nu x y M N : R).
  Hypotheses (HN : 0 <= N) (HN1 : N < 1) (HS : 0 < M ^ 2 + N ^ 2).
  Hypothesis Ey : x ^ 2 + y ^ 2 = (1 + M ^ 2) * (1 - N ^ 2).
  Let c := x ^ 2 / (x ^ 2 + y ^ 2).
  Ltac reg := unfold tang, tangential_formula; cbn [t_xx t_yy t_zz t_yz t_xz t_xy]; unfold c; rewrite ?Ey;
    unfold gxx0, gxx1, gyy0, gyy1, gxy0, gxy1, gxz0, gxz1, gzz0, gyz0, gD, gE;
    assert (Ey' : y ^ 2 = (1 + M ^ 2) * (1 - N ^ 2) - x ^ 2) by lra;
    field [Ey']; repeat split; nra.
  Lemma reg_xx : t_xx (tang nu x y M N) = x * (gxx0 nu M N + c * gxx1 nu M N). Proof. reg. Qed.
  Lemma reg_yy : t_yy (tang nu x y M N) = x * (gyy0 nu M N + c * gyy1 nu M N). Proof. reg. Qed.
  Lemma reg_xy : t_xy (tang nu x y M N) = y * (gxy0 nu M N + c * gxy1 nu M N). Proof. reg. Qed.
  Lemma reg_xz : t_xz (tang nu x y M N) = gxz0 M N + c * gxz1 M N. Proof. reg. Qed.
  Lemma reg_zz : t_zz (tang nu x y M N) = x * gzz0 M N. Proof. reg. Qed.
  Lemma reg_yz : t_yz (tang nu x y M N) = x * y * gyz0 M N. Proof. reg. Qed.
End Regular.

(** ** Limits *)

Lemma near_cont : forall (f : R -> R), continuous f 0 -> forall eps, 0 < eps ->
  exists d, 0 < d /\ forall r, 0 <= r -> r < d -> Rabs (f r - f 0) < eps.
Proof.
  intros f Hf eps He. destruct (Hf (fun v => Rabs (v - f 0) < eps)) as [d Hd].
  - exists (mkposreal eps He). intros v Hv. exact Hv.
  - exists d. split; [apply cond_pos|]. intros r H0 H1. apply Hd. change (Rabs (r - 0) < d). rewrite Rminus_0_r, Rabs_pos_eq; assumption.
Qed.
(** [x (f + c g)] is small when [x] is. *)
Lemma small_product : forall f g : R -> R, continuous f 0 -> continuous g 0 -> forall eps, 0 < eps ->
  exists d, 0 < d /\ forall r p c, 0 <= r -> r < d -> Rabs p <= r -> 0 <= c <= 1 -> Rabs (p * (f r + c * g r)) < eps.
Proof.
  intros f g Hf Hg eps He.
  destruct (near_cont f Hf 1 ltac:(lra)) as (d1 & P1 & F1). destruct (near_cont g Hg 1 ltac:(lra)) as (d2 & P2 & F2).
  set (B := Rabs (f 0) + 1 + (Rabs (g 0) + 1)).
  assert (HB : 0 < B) by (unfold B; pose proof (Rabs_pos (f 0)); pose proof (Rabs_pos (g 0)); lra).
  exists (Rmin (Rmin d1 d2) (eps / B)). split; [repeat apply Rmin_glb_lt; try assumption; apply Rdiv_lt_0_compat; assumption|].
  intros r p c H0 H1 Hp Hc.
  pose proof (Rmin_l (Rmin d1 d2) (eps / B)). pose proof (Rmin_r (Rmin d1 d2) (eps / B)).
  pose proof (Rmin_l d1 d2). pose proof (Rmin_r d1 d2).
  specialize (F1 r H0 ltac:(lra)). specialize (F2 r H0 ltac:(lra)).
  assert (Bf : Rabs (f r) <= Rabs (f 0) + 1).
  { replace (f r) with (f 0 + (f r - f 0)) by ring. eapply Rle_trans; [apply Rabs_triang|]. lra. }
  assert (Bg : Rabs (c * g r) <= Rabs (g 0) + 1).
  { rewrite Rabs_mult, (Rabs_pos_eq c) by lra.
    assert (Rabs (g r) <= Rabs (g 0) + 1).
    { replace (g r) with (g 0 + (g r - g 0)) by ring. eapply Rle_trans; [apply Rabs_triang|]. lra. }
    pose proof (Rabs_pos (g r)). nra. }
  assert (BB : Rabs (f r + c * g r) <= B) by (eapply Rle_trans; [apply Rabs_triang|]; unfold B; lra).
  rewrite Rabs_mult. assert (r < eps / B) by lra.
  apply Rle_lt_trans with (r * B).
  - apply Rmult_le_compat; try apply Rabs_pos; assumption.
  - apply Rlt_le_trans with (eps / B * B); [apply Rmult_lt_compat_r; assumption|]. right. field. lra.
Qed.

Lemma tangential_axis_limit : forall nu z, 0 <= z -> forall eps, 0 < eps ->
  exists delta, 0 < delta /\ forall x y, sqrt (x ^ 2 + y ^ 2) < delta ->
    let s := stress_for_tangential_loading1 nu x y z in let s0 := stress_for_tangential_loading1 nu 0 0 z in
    Rabs (t_xx s - t_xx s0) < eps /\ Rabs (t_yy s - t_yy s0) < eps /\ Rabs (t_zz s - t_zz s0) < eps
    /\ Rabs (t_yz s - t_yz s0) < eps /\ Rabs (t_xz s - t_xz s0) < eps /\ Rabs (t_xy s - t_xy s0) < eps.
Proof.
  intros nu z Hz eps He.
  set (M := fun r : R => hM (r ^ 2) z). set (N := fun r : R => hN (r ^ 2) z).
  assert (CQ : continuous (fun r : R => r ^ 2) 0).
  { apply (ex_derive_continuous (V := R_NormedModule)). auto_derive. exact I. }
  assert (CM : continuous M 0) by (apply (continuous_comp (fun r : R => r ^ 2) (fun t => hM t z)); [exact CQ|apply hM_cont]).
  assert (CN : continuous N 0) by (apply (continuous_comp (fun r : R => r ^ 2) (fun t => hN t z)); [exact CQ|apply hN_cont]).
  assert (M0 : M 0 = z) by (unfold M; replace (0 ^ 2) with 0 by ring; apply hM_axis; exact Hz).
  assert (N0 : N 0 = 1) by (unfold N; replace (0 ^ 2) with 0 by ring; apply hN_axis).
  assert (PZ : 0 <= z ^ 2) by apply pow2_ge_0.
  assert (pw : forall (f : R -> R) n, continuous f 0 -> continuous (fun r => f r ^ n) 0).
  { intros f n Hf. induction n as [|n IH]; [apply continuous_const|].
    apply (continuous_mult (K := R_AbsRing) f (fun r => f r ^ n)); assumption. }
  assert (iv : forall (f : R -> R), continuous f 0 -> f 0 <> 0 -> continuous (fun r => / f r) 0).
  { intros f Hf Hn. apply continuous_comp; [exact Hf|]. apply continuous_Rinv. exact Hn. }
  assert (CA : continuous (fun r => atan (M r)) 0).
  { apply continuous_comp; [exact CM|]. apply (ex_derive_continuous (V := R_NormedModule)). auto_derive. exact I. }
  assert (K : forall f g : R -> R, continuous f 0 -> continuous g 0 -> continuous (fun r => f r * g r) 0)
    by (intros f g; apply (continuous_mult (K := R_AbsRing))).
  assert (A : forall f g : R -> R, continuous f 0 -> continuous g 0 -> continuous (fun r => f r + g r) 0)
    by (intros f g; apply (continuous_plus (V := R_NormedModule))).
  assert (Bm : forall f g : R -> R, continuous f 0 -> continuous g 0 -> continuous (fun r => f r - g r) 0)
    by (intros f g; apply (continuous_minus (V := R_NormedModule))).
  assert (O : forall f : R -> R, continuous f 0 -> continuous (fun r => - f r) 0)
    by (intros f; apply (continuous_opp (V := R_NormedModule))).
  assert (C1 : forall c : R, continuous (fun _ : R => c) 0) by (intros; apply continuous_const).
  assert (I1 : continuous (fun r => / (1 + M r ^ 2)) 0).
  { apply iv; [apply A; [apply C1|apply pw; exact CM]|]. rewrite M0. lra. }
  assert (I2 : continuous (fun r => / ((1 + N r) ^ 2)) 0).
  { apply iv; [apply pw; apply A; [apply C1|exact CN]|]. rewrite N0. lra. }
  assert (I3 : continuous (fun r => / (M r ^ 2 + N r ^ 2)) 0).
  { apply iv; [apply A; apply pw; assumption|]. rewrite M0, N0. lra. }
  assert (I4 : continuous (fun r => / ((1 + M r ^ 2) ^ 2)) 0).
  { apply iv; [apply pw; apply A; [apply C1|apply pw; exact CM]|]. rewrite M0. nra. }
  pose proof (pw M 2%nat CM) as CM2. pose proof (pw N 2%nat CN) as CN2.
  Ltac gc := unfold gxx0, gxx1, gyy0, gyy1, gxy0, gxy1, gxz0, gxz1, gzz0, gyz0, gD, gE.
  assert (D1 : continuous (fun r => gxx0 nu (M r) (N r)) 0) by (gc; cts O A Bm K C1).
  assert (D2 : continuous (fun r => gxx1 nu (M r) (N r)) 0) by (gc; cts O A Bm K C1).
  assert (D3 : continuous (fun r => gyy0 nu (M r) (N r)) 0) by (gc; cts O A Bm K C1).
  assert (D4 : continuous (fun r => gyy1 nu (M r) (N r)) 0) by (gc; cts O A Bm K C1).
  assert (D5 : continuous (fun r => gxy0 nu (M r) (N r)) 0) by (gc; cts O A Bm K C1).
  assert (D6 : continuous (fun r => gxy1 nu (M r) (N r)) 0) by (gc; cts O A Bm K C1).
  assert (D7 : continuous (fun r => gxz0 (M r) (N r)) 0) by (gc; cts O A Bm K C1).
  assert (D8 : continuous (fun r => gxz1 (M r) (N r)) 0) by (gc; cts O A Bm K C1).
  assert (D9 : continuous (fun r => gzz0 (M r) (N r)) 0) by (gc; cts O A Bm K C1).
  assert (D10 : continuous (fun r => gyz0 (M r) (N r)) 0) by (gc; cts O A Bm K C1).
  assert (Z0 : continuous (fun _ : R => 0) 0) by apply C1.
  destruct (small_product _ _ D1 D2 eps He) as (d1 & P1 & F1).
  destruct (small_product _ _ D3 D4 eps He) as (d2 & P2 & F2).
  destruct (small_product _ _ D5 D6 eps He) as (d3 & P3 & F3).
  destruct (small_product _ _ D9 Z0 eps He) as (d4 & P4 & F4).
  destruct (small_product _ _ D10 Z0 eps He) as (d5 & P5 & F5).
  destruct (near_cont _ D7 (eps / 2) ltac:(lra)) as (d6 & P6 & F6).
  destruct (near_cont _ D8 (eps / 2) ltac:(lra)) as (d7 & P7 & F7).
  cbv beta in *.
  set (dd := Rmin (Rmin (Rmin d1 d2) (Rmin d3 d4)) (Rmin (Rmin d5 d6) (Rmin d7 (1 / 2)))).
  exists dd. split; [unfold dd; repeat apply Rmin_glb_lt; try assumption; lra|].
  assert (L : dd <= d1 /\ dd <= d2 /\ dd <= d3 /\ dd <= d4 /\ dd <= d5 /\ dd <= d6 /\ dd <= d7 /\ dd <= 1 / 2).
  { pose proof (Rmin_l (Rmin (Rmin d1 d2) (Rmin d3 d4)) (Rmin (Rmin d5 d6) (Rmin d7 (1 / 2)))).
    pose proof (Rmin_r (Rmin (Rmin d1 d2) (Rmin d3 d4)) (Rmin (Rmin d5 d6) (Rmin d7 (1 / 2)))). fold dd in H, H0.
    pose proof (Rmin_l (Rmin d1 d2) (Rmin d3 d4)). pose proof (Rmin_r (Rmin d1 d2) (Rmin d3 d4)).
    pose proof (Rmin_l (Rmin d5 d6) (Rmin d7 (1 / 2))). pose proof (Rmin_r (Rmin d5 d6) (Rmin d7 (1 / 2))).
    pose proof (Rmin_l d1 d2). pose proof (Rmin_r d1 d2). pose proof (Rmin_l d3 d4). pose proof (Rmin_r d3 d4).
    pose proof (Rmin_l d5 d6). pose proof (Rmin_r d5 d6). pose proof (Rmin_l d7 (1 / 2)). pose proof (Rmin_r d7 (1 / 2)).
    repeat split; lra. }
  clearbody dd. destruct L as (L1 & L2 & L3 & L4 & L5 & L6 & L7 & L8).
  intros x y L s s0.
  assert (V0 : s0 = mkCart 0 0 0 0 (gxz0 (M 0) (N 0)) 0).
  { unfold s0, stress_for_tangential_loading1. destruct (Rlt_dec 0 (0 ^ 2 + 0 ^ 2)); [lra|].
    rewrite M0, N0. f_equal. unfold gxz0, arctan2_1. field. lra. }
  assert (G1 : gxz1 (M 0) (N 0) = 0) by (rewrite M0, N0; unfold gxz1; field; lra).
  destruct (Rlt_dec 0 (x ^ 2 + y ^ 2)) as [Hq|Hq].
  - destruct (sqrt_pow2_pos _ Hq) as [Hr Er]. set (r := sqrt (x ^ 2 + y ^ 2)) in *.
    assert (R1 : r ^ 2 < 1) by nra.
    pose proof (S_gt0 (r ^ 2) z Hz ltac:(left; lra)) as HS. rewrite (S_MN (r ^ 2) z) in HS.
    pose proof (q_MN (r ^ 2) z Hz) as Eq. pose proof (M_ge0 (r ^ 2) z) as HM. pose proof (N_ge0 (r ^ 2) z) as HN.
    pose proof (N_lt1 (r ^ 2) z ltac:(lra) Hz ltac:(lra)) as HN1.
    assert (T : s = tang nu x y (M r) (N r)).
    { unfold s. rewrite tang_tang by assumption. unfold M, N. rewrite Er. reflexivity. }
    change (hM (r ^ 2) z) with (M r) in *. change (hN (r ^ 2) z) with (N r) in *.
    rewrite V0, T. rewrite Er in Eq. cbn [t_xx t_yy t_zz t_yz t_xz t_xy]. rewrite !Rminus_0_r.
    rewrite (reg_xx nu x y (M r) (N r) HN HN1 HS Eq), (reg_yy nu x y (M r) (N r) HN HN1 HS Eq),
      (reg_xy nu x y (M r) (N r) HN HN1 HS Eq), (reg_xz nu x y (M r) (N r) HN HN1 HS Eq),
      (reg_zz nu x y (M r) (N r) HN HN1 HS Eq), (reg_yz nu x y (M r) (N r) HN HN1 HS Eq).
    pose proof (pow2_ge_0 x) as X2. pose proof (pow2_ge_0 y) as Y2.
    assert (BX : Rabs x <= r) by (apply Rabs_le; split; nra).
    assert (BY : Rabs y <= r) by (apply Rabs_le; split; nra).
    assert (BXY : Rabs (x * y) <= r).
    { rewrite Rabs_mult. pose proof (Rabs_pos x). pose proof (Rabs_pos y). assert (r < 1) by lra. nra. }
    set (c := x ^ 2 / (x ^ 2 + y ^ 2)).
    assert (BC : 0 <= c <= 1).
    { unfold c. split; [apply Rmult_le_pos; [lra|left; apply Rinv_0_lt_compat; lra]|].
      apply Rmult_le_reg_r with (x ^ 2 + y ^ 2); [lra|]. unfold Rdiv. rewrite Rmult_assoc, Rinv_l by lra. lra. }
    split; [apply F1; lra|]. split; [apply F2; lra|].
    split; [replace (x * gzz0 (M r) (N r)) with (x * (gzz0 (M r) (N r) + c * 0)) by ring; apply F4; lra|].
    split; [replace (x * y * gyz0 (M r) (N r)) with (x * y * (gyz0 (M r) (N r) + c * 0)) by ring; apply F5; lra|].
    split; [|apply F3; lra].
    specialize (F6 r ltac:(lra) ltac:(lra)). specialize (F7 r ltac:(lra) ltac:(lra)). rewrite G1, Rminus_0_r in F7.
    replace (gxz0 (M r) (N r) + c * gxz1 (M r) (N r) - gxz0 (M 0) (N 0))
      with ((gxz0 (M r) (N r) - gxz0 (M 0) (N 0)) + c * gxz1 (M r) (N r)) by ring.
    eapply Rle_lt_trans; [apply Rabs_triang|]. rewrite (Rabs_mult c), (Rabs_pos_eq c) by lra.
    pose proof (Rabs_pos (gxz1 (M r) (N r))). nra.
  - pose proof (pow2_ge_0 x). pose proof (pow2_ge_0 y).
    assert (x = 0) by nra. assert (y = 0) by nra. subst x y. unfold s, s0. rewrite !Rminus_eq_0, Rabs_R0. lra.
Qed.
