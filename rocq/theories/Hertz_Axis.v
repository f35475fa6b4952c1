(** * The Hertz fields on the axis and on the surface *)

From Coq Require Import Reals Lra Lia Psatz.
From Coquelicot Require Import Coquelicot.
From Verif Require Import Hertz_Model Calc Hertz_Proofs Hertz_Surface Hertz_Interior Hertz_Equilibrium.
Local Open Scope R_scope.

(** ** The axis *)
Lemma hS_axis : forall z, hS 0 z = 1 + z ^ 2.
Proof.
  intros z. unfold hS, hA. apply sqrt_eq; [pose proof (pow2_ge_0 z); lra|]. ring.
Qed.
Lemma hM_axis : forall z, 0 <= z -> hM 0 z = z.
Proof. intros z Hz. unfold hM. rewrite hS_axis. unfold hA. apply sqrt_eq; [exact Hz|]. field. Qed.
Lemma hN_axis : forall z, hN 0 z = 1.
Proof. intros z. unfold hN. rewrite hS_axis. unfold hA. apply sqrt_eq; [lra|]. field. Qed.

Lemma huber_axis : forall nu z, 0 <= z ->
  stress1 nu 0 z = mkCyl (fst (centerline_stress1 nu z)) (fst (centerline_stress1 nu z))
                         (snd (centerline_stress1 nu z)) 0.
Proof.
  intros nu z Hz. unfold stress1, centerline_stress1.
  assert (P : 0 < 1 + z ^ 2) by (pose proof (pow2_ge_0 z); lra).
  assert (EU : (0 ^ 2 + z ^ 2 - 1) / 2 + sqrt ((0 ^ 2 + z ^ 2 - 1) ^ 2 / 4 + z ^ 2) = z ^ 2).
  { rewrite (sqrt_eq _ ((1 + z ^ 2) / 2)); [field|lra|field]. }
  rewrite EU. replace (0 / sqrt (1 + z ^ 2)) with 0 by (unfold Rdiv; ring).
  assert (EZ : sqrt (z ^ 2) = z) by (apply sqrt_eq; [exact Hz|ring]). rewrite EZ.
  replace (1 - 0 ^ 2) with 1 by ring. rewrite sqrt_1.
  destruct (Rlt_dec 0 0); [lra|]. destruct (Rlt_dec 0 (z ^ 2 + 1 ^ 2)) as [_|B]; [|lra]. cbn [fst snd].
  f_equal; field; repeat split; try lra. apply Rgt_not_eq. apply sqrt_lt_R0. exact P.
Qed.

Lemma hamilton_axis : forall nu z, 0 <= z ->
  stress_Cartesian1 nu 0 0 z = mkCart (fst (centerline_stress1 nu z)) (fst (centerline_stress1 nu z))
                                      (snd (centerline_stress1 nu z)) 0 0 0.
Proof.
  intros nu z Hz. unfold stress_Cartesian1, centerline_stress1.
  destruct (Rlt_dec 0 (0 ^ 2 + 0 ^ 2)); [lra|]. cbn [fst snd]. rewrite z_arctan_inv_eq by exact Hz.
  f_equal; ring.
Qed.

(** Continuity of the coordinates *)
Lemma hM_cont : forall z q, continuous (fun t => hM t z) q.
Proof.
  intros z q. unfold hM, hS, hA. apply (continuous_sqrt_comp (fun t => (sqrt ((t + z ^ 2 - 1) ^ 2 + 4 * z ^ 2) + (t + z ^ 2 - 1)) / 2)).
  apply (continuous_mult (K := R_AbsRing)); [|apply continuous_const].
  apply (continuous_plus (V := R_NormedModule)).
  - apply (continuous_sqrt_comp (fun t => (t + z ^ 2 - 1) ^ 2 + 4 * z ^ 2)).
    apply (ex_derive_continuous (V := R_NormedModule)). auto_derive. exact I.
  - apply (ex_derive_continuous (V := R_NormedModule)). auto_derive. exact I.
Qed.
Lemma hN_cont : forall z q, continuous (fun t => hN t z) q.
Proof.
  intros z q. unfold hN, hS, hA. apply (continuous_sqrt_comp (fun t => (sqrt ((t + z ^ 2 - 1) ^ 2 + 4 * z ^ 2) - (t + z ^ 2 - 1)) / 2)).
  apply (continuous_mult (K := R_AbsRing)); [|apply continuous_const].
  apply (continuous_minus (V := R_NormedModule)).
  - apply (continuous_sqrt_comp (fun t => (t + z ^ 2 - 1) ^ 2 + 4 * z ^ 2)).
    apply (ex_derive_continuous (V := R_NormedModule)). auto_derive. exact I.
  - apply (ex_derive_continuous (V := R_NormedModule)). auto_derive. exact I.
Qed.

(** The Huber components in the coordinates without the removable singularity. *)
Definition reg_tt (nu M N : R) : R :=
  - ((1 - 2 * nu) / 3 / (1 + M ^ 2) * ((1 + N + N ^ 2) / (1 + N))
     + N * (2 * nu + (1 - nu) * M ^ 2 / (1 + M ^ 2) - (1 + nu) * (M * (PI / 2 - atan M)))).
Definition reg_rr (nu M N : R) : R :=
  (1 - 2 * nu) / 3 / (1 + M ^ 2) * ((1 + N + N ^ 2) / (1 + N)) + N * (N ^ 2 / (M ^ 2 + N ^ 2))
  + N * ((1 - nu) * M ^ 2 / (1 + M ^ 2) + (1 + nu) * (M * (PI / 2 - atan M)) - 2).
Definition reg_zz (M N : R) : R := - (N * (N ^ 2 / (M ^ 2 + N ^ 2))).
Definition reg_rz (r M N : R) : R := - (r * (N ^ 2 / (M ^ 2 + N ^ 2)) * M / (1 + M ^ 2)).

Lemma huber_reg : forall nu r z, 0 <= r -> 0 <= z -> (r ^ 2 <> 1 \/ z <> 0) ->
  let M := hM (r ^ 2) z in let N := hN (r ^ 2) z in
  stress1 nu r z = mkCyl (reg_tt nu M N) (reg_rr nu M N) (reg_zz M N) (reg_rz r M N).
Proof.
  intros nu r z Hr Hz Hs M N. destruct Hr as [Hr|Hr].
  - pose proof (S_gt0 (r ^ 2) z Hz Hs) as HS.
    destruct (stress1_MN nu r z Hz Hr HS) as (E1 & E2 & E3 & E4). fold M N in E1, E2, E3, E4.
    assert (ES : hS (r ^ 2) z = M ^ 2 + N ^ 2) by apply S_MN. rewrite ES in *.
    assert (HN : 0 <= N) by apply N_ge0.
    assert (H2 : 0 < r ^ 2) by (apply pow_lt; exact Hr).
    assert (HN1 : N < 1) by (apply N_lt1; lra).
    assert (EO : (1 - N ^ 3) / (1 - N ^ 2) = (1 + N + N ^ 2) / (1 + N)) by (field; split; nra).
    rewrite EO in *. unfold arctan2_1 in *.
    destruct (stress1 nu r z) as [a b c d]. cbn [c_tt c_rr c_zz c_rz] in *. subst a b c d.
    unfold reg_tt, reg_rr, reg_zz, reg_rz. f_equal; field; repeat split; nra.
  - subst r. unfold M, N. replace (0 ^ 2) with 0 by ring. rewrite hM_axis, hN_axis by exact Hz.
    rewrite huber_axis by exact Hz. unfold centerline_stress1. cbn [fst snd].
    rewrite z_arctan_inv_eq by exact Hz. unfold arctan2_1, reg_tt, reg_rr, reg_zz, reg_rz.
    pose proof (pow2_ge_0 z). f_equal; field; lra.
Qed.

Ltac cts O A Bm K C1 :=
  repeat match goal with
    | |- continuous (fun _ => ?c) _ => apply (C1 c)
    | |- _ => assumption
    | |- continuous (fun r => - @?f r) _ => apply (O f)
    | |- continuous (fun r => @?f r + @?g r) _ => apply (A f g)
    | |- continuous (fun r => @?f r - @?g r) _ => apply (Bm f g)
    | |- continuous (fun r => @?f r * @?g r) _ => apply (K f g)
    | |- continuous (fun r => r) _ => apply continuous_id
    end.

(** The Huber field is continuous towards the axis. *)
Lemma huber_axis_limit : forall nu z, 0 <= z -> forall eps, 0 < eps ->
  exists delta, 0 < delta /\ forall r, 0 <= r -> r < delta ->
    Rabs (c_tt (stress1 nu r z) - c_tt (stress1 nu 0 z)) < eps
    /\ Rabs (c_rr (stress1 nu r z) - c_rr (stress1 nu 0 z)) < eps
    /\ Rabs (c_zz (stress1 nu r z) - c_zz (stress1 nu 0 z)) < eps
    /\ Rabs (c_rz (stress1 nu r z) - c_rz (stress1 nu 0 z)) < eps.
Proof.
  intros nu z Hz eps He.
  set (M := fun r : R => hM (r ^ 2) z). set (N := fun r : R => hN (r ^ 2) z).
  assert (CQ : continuous (fun r : R => r ^ 2) 0).
  { apply (ex_derive_continuous (V := R_NormedModule)). auto_derive. exact I. }
  assert (CM : continuous M 0) by (apply (continuous_comp (fun r : R => r ^ 2) (fun t => hM t z)); [exact CQ|apply hM_cont]).
  assert (CN : continuous N 0) by (apply (continuous_comp (fun r : R => r ^ 2) (fun t => hN t z)); [exact CQ|apply hN_cont]).
  assert (M0 : M 0 = z) by (unfold M; replace (0 ^ 2) with 0 by ring; apply hM_axis; exact Hz).
  assert (N0 : N 0 = 1) by (unfold N; replace (0 ^ 2) with 0 by ring; apply hN_axis).
  assert (PZ : 0 <= z ^ 2) by apply pow2_ge_0.
  assert (pw : forall (f : R -> R) n, continuous f 0 -> continuous (fun r => f r ^ n) 0).
  { intros f n Hf. induction n as [|n IH]; [apply continuous_const|].
    apply (continuous_mult (K := R_AbsRing) f (fun r => f r ^ n)); assumption. }
  assert (iv : forall (f : R -> R), continuous f 0 -> f 0 <> 0 -> continuous (fun r => / f r) 0).
  { intros f Hf Hn. apply continuous_comp; [exact Hf|]. apply continuous_Rinv. exact Hn. }
  assert (CA : continuous (fun r => atan (M r)) 0).
  { apply continuous_comp; [exact CM|]. apply (ex_derive_continuous (V := R_NormedModule)). auto_derive. exact I. }
  assert (K : forall f g : R -> R, continuous f 0 -> continuous g 0 -> continuous (fun r => f r * g r) 0)
    by (intros f g; apply (continuous_mult (K := R_AbsRing))).
  assert (A : forall f g : R -> R, continuous f 0 -> continuous g 0 -> continuous (fun r => f r + g r) 0)
    by (intros f g; apply (continuous_plus (V := R_NormedModule))).
  assert (Bm : forall f g : R -> R, continuous f 0 -> continuous g 0 -> continuous (fun r => f r - g r) 0)
    by (intros f g; apply (continuous_minus (V := R_NormedModule))).
  assert (O : forall f : R -> R, continuous f 0 -> continuous (fun r => - f r) 0)
    by (intros f; apply (continuous_opp (V := R_NormedModule))).
  assert (C1 : forall c : R, continuous (fun _ : R => c) 0) by (intros; apply continuous_const).
  assert (I1 : continuous (fun r => / (1 + M r ^ 2)) 0).
  { apply iv; [apply A; [apply C1|apply pw; exact CM]|]. rewrite M0. lra. }
  assert (I2 : continuous (fun r => / (1 + N r)) 0).
  { apply iv; [apply A; [apply C1|exact CN]|]. rewrite N0. lra. }
  assert (I3 : continuous (fun r => / (M r ^ 2 + N r ^ 2)) 0).
  { apply iv; [apply A; apply pw; assumption|]. rewrite M0, N0. lra. }
  pose proof (pw M 2%nat CM) as CM2. pose proof (pw N 2%nat CN) as CN2.
  assert (D1 : continuous (fun r => reg_tt nu (M r) (N r)) 0).
  { unfold reg_tt, Rdiv. cts O A Bm K C1. }
  assert (D2 : continuous (fun r => reg_rr nu (M r) (N r)) 0).
  { unfold reg_rr, Rdiv. cts O A Bm K C1. }
  assert (D3 : continuous (fun r => reg_zz (M r) (N r)) 0).
  { unfold reg_zz, Rdiv. cts O A Bm K C1. }
  assert (D4 : continuous (fun r => reg_rz r (M r) (N r)) 0).
  { unfold reg_rz, Rdiv. cts O A Bm K C1. }
  assert (loc : forall f : R -> R, continuous f 0 -> exists d, 0 < d /\ forall r, 0 <= r -> r < d -> Rabs (f r - f 0) < eps).
  { intros f Hf. destruct (Hf (fun v => Rabs (v - f 0) < eps)) as [d Hd].
    - exists (mkposreal eps He). intros v Hv. exact Hv.
    - exists d. split; [apply cond_pos|]. intros r H0 H1. apply Hd. change (Rabs (r - 0) < d). rewrite Rminus_0_r, Rabs_pos_eq; assumption. }
  destruct (loc _ D1) as (d1 & P1 & F1). destruct (loc _ D2) as (d2 & P2 & F2).
  destruct (loc _ D3) as (d3 & P3 & F3). destruct (loc _ D4) as (d4 & P4 & F4).
  exists (Rmin (1 / 2) (Rmin (Rmin d1 d2) (Rmin d3 d4))). split; [repeat apply Rmin_glb_lt; lra|].
  intros r H0 H1.
  pose proof (Rmin_l (1 / 2) (Rmin (Rmin d1 d2) (Rmin d3 d4))). pose proof (Rmin_r (1 / 2) (Rmin (Rmin d1 d2) (Rmin d3 d4))).
  pose proof (Rmin_l (Rmin d1 d2) (Rmin d3 d4)). pose proof (Rmin_r (Rmin d1 d2) (Rmin d3 d4)).
  pose proof (Rmin_l d1 d2). pose proof (Rmin_r d1 d2). pose proof (Rmin_l d3 d4). pose proof (Rmin_r d3 d4).
  rewrite (huber_reg nu r z H0 Hz) by (left; nra).
  rewrite (huber_reg nu 0 z ltac:(lra) Hz) by (left; lra). cbn [c_tt c_rr c_zz c_rz].
  repeat split; [apply F1|apply F2|apply F3|apply F4]; lra.
Qed.

Lemma convex_lt : forall p q A B v e, 0 <= p -> 0 <= q -> 0 < p + q ->
  (p + q) * v = p * A + q * B -> Rabs A < e / 2 -> Rabs B < e / 2 -> Rabs v < e.
Proof.
  intros p q A B v e Hp Hq Hpq E HA HB. apply Rabs_def2 in HA, HB.
  assert (0 < e) by lra. apply Rabs_def1; apply Rmult_lt_reg_l with (p + q); nra.
Qed.
Lemma scale_lt : forall r x w v e, 0 < r -> - r <= x <= r -> r * v = x * w -> Rabs w < e -> Rabs v < e.
Proof.
  intros r x w v e Hr Hx E HW.
  apply Rmult_lt_reg_l with r; [exact Hr|]. rewrite <- (Rabs_pos_eq r) at 1 by lra. rewrite <- Rabs_mult, E, Rabs_mult.
  assert (Rabs x <= r) by (apply Rabs_le; exact Hx). pose proof (Rabs_pos x). pose proof (Rabs_pos w). nra.
Qed.

(** The Hamilton field is continuous towards the axis. *)
Lemma hamilton_axis_limit : forall nu z, 0 <= z -> forall eps, 0 < eps ->
  exists delta, 0 < delta /\ forall x y, sqrt (x ^ 2 + y ^ 2) < delta ->
    let s := stress_Cartesian1 nu x y z in let s0 := stress_Cartesian1 nu 0 0 z in
    Rabs (t_xx s - t_xx s0) < eps /\ Rabs (t_yy s - t_yy s0) < eps /\ Rabs (t_zz s - t_zz s0) < eps
    /\ Rabs (t_yz s - t_yz s0) < eps /\ Rabs (t_xz s - t_xz s0) < eps /\ Rabs (t_xy s - t_xy s0) < eps.
Proof.
  intros nu z Hz eps He. destruct (huber_axis_limit nu z Hz (eps / 2) ltac:(lra)) as (d & Hd & F).
  exists (Rmin d (1 / 2)). split; [apply Rmin_glb_lt; lra|]. intros x y L s s0.
  destruct (Rlt_dec 0 (x ^ 2 + y ^ 2)) as [Hq|Hq].
  - destruct (sqrt_pow2_pos _ Hq) as [Hr Er].
    pose proof (Rmin_l d (1 / 2)). pose proof (Rmin_r d (1 / 2)).
    specialize (F (sqrt (x ^ 2 + y ^ 2)) ltac:(lra) ltac:(lra)).
    assert (Hs : x ^ 2 + y ^ 2 <> 1 \/ z <> 0) by (left; rewrite <- Er; nra).
    pose proof (huber_hamilton nu x y z Hq Hz Hs) as RO. fold s in RO.
    unfold s0. rewrite (hamilton_axis nu z Hz). rewrite (huber_axis nu z Hz) in F.
    set (r := sqrt (x ^ 2 + y ^ 2)) in *. cbn [c_tt c_rr c_zz c_rz t_xx t_yy t_zz t_yz t_xz t_xy] in *.
    set (a := fst (centerline_stress1 nu z)) in *. set (c := snd (centerline_stress1 nu z)) in *.
    destruct (stress1 nu r z) as [tt rr zz rz]. unfold rotates in RO.
    destruct s as [xx yy szz yz xz xy]. cbn [c_tt c_rr c_zz c_rz t_xx t_yy t_zz t_yz t_xz t_xy] in *.
    destruct RO as (R1 & R2 & R3 & R4 & R5 & R6). destruct F as (F1 & F2 & F3 & F4).
    apply Rabs_def2 in F1, F2, F3, F4. rewrite Rminus_0_r in *.
    pose proof (pow2_ge_0 x). pose proof (pow2_ge_0 y). pose proof (pow2_ge_0 (x - y)). pose proof (pow2_ge_0 (x + y)).
    assert (BX : - r <= x <= r) by (split; nra). assert (BY : - r <= y <= r) by (split; nra).
    repeat split.
    + apply (convex_lt (x ^ 2) (y ^ 2) (rr - a) (tt - a)); try (apply Rabs_def1); try lra. rewrite <- Er, Rmult_minus_distr_l, R1. rewrite Er. ring.
    + apply (convex_lt (y ^ 2) (x ^ 2) (rr - a) (tt - a)); try (apply Rabs_def1); try lra. rewrite (Rplus_comm (y ^ 2)), <- Er, Rmult_minus_distr_l, R2. rewrite Er. ring.
    + apply Rabs_def1; lra.
    + rewrite ?Rminus_0_r. apply (scale_lt r y rz); try assumption. apply Rabs_def1; lra.
    + rewrite ?Rminus_0_r. apply (scale_lt r x rz); try assumption. apply Rabs_def1; lra.
    + rewrite ?Rminus_0_r. apply (scale_lt (r ^ 2) (x * y) (rr - tt)); [apply pow_lt; exact Hr|rewrite Er; split; nra|exact R3|apply Rabs_def1; lra].
  - pose proof (pow2_ge_0 x). pose proof (pow2_ge_0 y).
    assert (x = 0) by nra. assert (y = 0) by nra. subst x y. unfold s, s0. rewrite !Rminus_eq_0, Rabs_R0. lra.
Qed.

(** ** The surface *)
Lemma hS_surface : forall q, hS q 0 = Rabs (q - 1).
Proof.
  intros q. unfold hS, hA. replace ((q + 0 ^ 2 - 1) ^ 2 + 4 * 0 ^ 2) with (Rsqr (q - 1)) by (unfold Rsqr; ring).
  apply sqrt_Rsqr_abs.
Qed.
Lemma surface_MN_in : forall q, q <= 1 -> hM q 0 = 0 /\ hN q 0 = sqrt (1 - q).
Proof.
  intros q H. unfold hM, hN. rewrite hS_surface. rewrite Rabs_left1 by lra. unfold hA. split.
  - replace ((- (q - 1) + (q + 0 ^ 2 - 1)) / 2) with 0 by field. apply sqrt_0.
  - f_equal. field.
Qed.
Lemma surface_MN_out : forall q, 1 <= q -> hM q 0 = sqrt (q - 1) /\ hN q 0 = 0.
Proof.
  intros q H. unfold hM, hN. rewrite hS_surface. rewrite Rabs_right by lra. unfold hA. split.
  - f_equal. field.
  - replace ((q - 1 - (q + 0 ^ 2 - 1)) / 2) with 0 by field. apply sqrt_0.
Qed.

Lemma huber_edge : forall nu, stress1 nu 1 0 = mkCyl (- ((1 - 2 * nu) / 3)) ((1 - 2 * nu) / 3) 0 0.
Proof.
  intros nu. unfold stress1.
  assert (EU : (1 ^ 2 + 0 ^ 2 - 1) / 2 + sqrt ((1 ^ 2 + 0 ^ 2 - 1) ^ 2 / 4 + 0 ^ 2) = 0).
  { replace ((1 ^ 2 + 0 ^ 2 - 1) ^ 2 / 4 + 0 ^ 2) with 0 by field. rewrite sqrt_0. field. }
  rewrite EU, sqrt_0. replace (1 + 0) with 1 by ring. rewrite sqrt_1.
  replace (1 / 1) with 1 by field. replace (1 - 1 ^ 2) with 0 by ring. rewrite sqrt_0.
  destruct (Rlt_dec 0 1) as [_|B]; [|lra]. destruct (Rlt_dec 0 (0 + 0 ^ 2)); [lra|].
  f_equal; field.
Qed.

Lemma huber_surface : forall nu r, / 10 ^ 6 <= r ->
  stress1 nu r 0 = mkCyl (st nu r) (sr nu r) (- pz nu r) 0.
Proof.
  intros nu r H. pose proof eps_pos as HP.
  assert (H2 : 0 < r ^ 2) by (apply pow_lt; lra).
  destruct (Req_dec r 1) as [E|E].
  - subst r. rewrite huber_edge. destruct (surface_out nu 1 ltac:(lra)) as (-> & -> & ->). f_equal; field.
  - rewrite (huber_reg nu r 0) by (try lra; left; nra).
    destruct (Rlt_dec r 1) as [L|L].
    + assert (Q : r ^ 2 < 1) by nra. destruct (surface_MN_in (r ^ 2) ltac:(lra)) as [-> ->].
      destruct (surface_in nu r H L) as (-> & -> & ->). unfold rad_part, reg_tt, reg_rr, reg_zz, reg_rz.
      assert (W : sqrt (1 - r ^ 2) * sqrt (1 - r ^ 2) = 1 - r ^ 2) by (apply sqrt_sqrt; lra).
      assert (W0 : 0 < sqrt (1 - r ^ 2)) by (apply sqrt_lt_R0; lra).
      set (w := sqrt (1 - r ^ 2)) in *. clearbody w.
      assert (ER : r ^ 2 = 1 - w ^ 2) by (simpl; lra). assert (w < 1) by nra. rewrite !ER.
      f_equal; field; repeat split; nra.
    + assert (Q : 1 < r ^ 2) by nra. destruct (surface_MN_out (r ^ 2) ltac:(lra)) as [-> ->].
      destruct (surface_out nu r ltac:(lra)) as (-> & -> & ->). unfold reg_tt, reg_rr, reg_zz, reg_rz.
      assert (W : sqrt (r ^ 2 - 1) ^ 2 = r ^ 2 - 1) by (apply pow2_sqrt; lra).
      rewrite W. f_equal; field; nra.
Qed.
(** Below 10^-6 [surface_stress] returns the value on the axis. *)
Lemma huber_surface_center : forall nu r, Rabs r < / 10 ^ 6 ->
  stress1 nu 0 0 = mkCyl (st nu r) (sr nu r) (- pz nu r) 0.
Proof.
  intros nu r H. destruct (surface_center nu r H) as (-> & -> & ->).
  rewrite huber_axis by lra. unfold centerline_stress1. cbn [fst snd].
  rewrite z_arctan_inv_eq by lra. f_equal; field.
Qed.

(** Tractions of the Cartesian fields on the surface. *)
Lemma normal_traction : forall nu x y, x ^ 2 + y ^ 2 <> 1 ->
  let s := stress_Cartesian1 nu x y 0 in
  t_xz s = 0 /\ t_yz s = 0
  /\ (x ^ 2 + y ^ 2 < 1 -> t_zz s = - sqrt (1 - (x ^ 2 + y ^ 2)))
  /\ (1 < x ^ 2 + y ^ 2 -> t_zz s = 0).
Proof.
  intros nu x y Hs s. subst s. unfold stress_Cartesian1. destruct (Rlt_dec 0 (x ^ 2 + y ^ 2)) as [Hq|Hq].
  - set (q := x ^ 2 + y ^ 2) in *. unfold normal_formula. cbn [t_xz t_yz t_zz]. repeat split.
    + ring.
    + ring.
    + intros L. destruct (surface_MN_in q ltac:(lra)) as [EM EN]. rewrite EM, EN. unfold Rdiv. ring.
    + intros L. destruct (surface_MN_out q ltac:(lra)) as [EM EN]. rewrite EM, EN. unfold Rdiv. ring.
  - cbn [t_xz t_yz t_zz]. pose proof (pow2_ge_0 x). pose proof (pow2_ge_0 y). repeat split; intros; [|lra].
    replace (1 - (x ^ 2 + y ^ 2)) with 1 by lra. rewrite sqrt_1. field.
Qed.
Lemma tangential_traction : forall nu x y, x ^ 2 + y ^ 2 <> 1 ->
  let s := stress_for_tangential_loading1 nu x y 0 in
  t_zz s = 0 /\ t_yz s = 0
  /\ (x ^ 2 + y ^ 2 < 1 -> t_xz s = - sqrt (1 - (x ^ 2 + y ^ 2)))
  /\ (1 < x ^ 2 + y ^ 2 -> t_xz s = 0).
Proof.
  intros nu x y Hs s. subst s. unfold stress_for_tangential_loading1. destruct (Rlt_dec 0 (x ^ 2 + y ^ 2)) as [Hq|Hq].
  - set (q := x ^ 2 + y ^ 2) in *. unfold tangential_formula. cbn [t_xz t_yz t_zz]. repeat split.
    + unfold Rdiv. ring.
    + unfold Rdiv. ring.
    + intros L. destruct (surface_MN_in q ltac:(lra)) as [EM EN]. rewrite EM, EN, hS_surface.
      rewrite Rabs_left by lra. unfold hA. field. split; lra.
    + intros L. destruct (surface_MN_out q ltac:(lra)) as [EM EN]. rewrite EM, EN. unfold Rdiv. ring.
  - cbn [t_xz t_yz t_zz]. pose proof (pow2_ge_0 x). pose proof (pow2_ge_0 y). repeat split; intros; [|lra].
    replace (1 - (x ^ 2 + y ^ 2)) with 1 by lra. rewrite sqrt_1. field.
Qed.
