(** * Properties of the Westergaard solution (C59) *)

From Coq Require Import Reals Lra Lia Psatz.
From Coquelicot Require Import Coquelicot.
From Verif Require Import Py Calc Westergaard_Model Westergaard_Proofs Westergaard_Mean Westergaard_Log Westergaard_Disp.
Local Open Scope R_scope.

(** Contact radius and mean pressure are inverse to each other, and larger
    loads mean larger contacts. *)
Theorem C59_inverse :
  (forall m, 0 <= m <= 1 -> mean_pressure (contact_radius m) = m /\ 0 <= contact_radius m <= 1 / 2)
  /\ (forall a, 0 <= a <= 1 / 2 -> contact_radius (mean_pressure a) = a /\ 0 <= mean_pressure a <= 1)
  /\ (forall a b, 0 <= a -> a < b -> b <= 1 / 2 -> mean_pressure a < mean_pressure b).
Proof.
  split; [|split].
  - intros m H. split; [apply mp_of_cr|apply cr_range]; exact H.
  - intros a H. split; [apply cr_of_mp; exact H|apply mp_range].
  - exact mp_increasing.
Qed.
Print Assumptions C59_inverse.

(** The contact regions are the intervals of half width [a] around the
    integers.  The pressure is positive inside and zero elsewhere, even,
    periodic, and its mean over any period is one (it is given in units of
    the mean pressure). *)
Theorem C59_pressure : forall a, 0 < a <= 1 / 2 -> exists p : R -> R,
  (forall x mp, pressure1 x (Some a) mp = Ret (p x))
  /\ (forall x, (exists n : Z, Rabs (x - IZR n) < a) -> 0 < p x)
  /\ (forall x, (forall n : Z, a <= Rabs (x - IZR n)) -> p x = 0)
  /\ (forall x, p (- x) = p x) /\ (forall x (n : Z), p (x + IZR n) = p x)
  /\ (forall t, is_RInt p t (t + 1) 1).
Proof.
  intros a Ha. exists (fun x => pressure_psia (PI * a) x).
  split; [reflexivity|]. split; [|split; [|split; [|split]]].
  - intros x N. apply pressure_in; [exact Ha|]. apply fold_lt; [lra|exact N].
  - intros x N. apply pressure_out; [lra|]. destruct (Rle_lt_dec a (map_x_on_0_05 x)) as [L|L]; [exact L|exfalso].
    apply fold_lt in L; [|lra]. destruct L as [n L]. pose proof (N n). lra.
  - intros x. apply pressure_even.
  - intros x n. apply pressure_period.
  - intros t. apply pressure_mean; exact Ha.
Qed.
Print Assumptions C59_pressure.

(** The gap is zero in the contact regions and positive outside; gap and
    displacement are even and periodic; the gap is the geometry plus the
    displacement; the mean of the displacement over any period is
    [mean_displacement]. *)
Theorem C59_gap : forall a, 0 < a <= 1 / 2 ->
  (forall x, (exists n : Z, Rabs (x - IZR n) <= a) -> gap1 x a = 0)
  /\ (forall x, (forall n : Z, a < Rabs (x - IZR n)) -> 0 < gap1 x a)
  /\ (forall x, gap1 (- x) a = gap1 x a /\ displacement1 (- x) a = displacement1 x a)
  /\ (forall x (n : Z), gap1 (x + IZR n) a = gap1 x a /\ displacement1 (x + IZR n) a = displacement1 x a)
  /\ (forall x, gap1 x a = sin (PI * x) ^ 2 + displacement1 x a)
  /\ (forall t, is_RInt (fun x => displacement1 x a) t (t + 1) (mean_displacement a)).
Proof.
  intros a Ha. split; [|split; [|split; [|split; [|split]]]].
  - intros x N. apply gap_in. apply fold_le; [lra|exact N].
  - intros x N. apply gap_pos; [exact Ha|]. destruct (Rlt_le_dec a (map_x_on_0_05 x)) as [L|L]; [exact L|exfalso].
    apply fold_le in L; [|lra]. destruct L as [n L]. pose proof (N n). lra.
  - intros x. split; [apply gap1_even|apply disp_even].
  - intros x n. split; [apply gap_period|apply disp_period].
  - reflexivity.
  - intros t. apply disp_mean; exact Ha.
Qed.
Print Assumptions C59_gap.

(** Pressure and slope of the gap are the two parts of one function: the
    slope is zero where there is pressure, the pressure is zero where there
    is a slope, and up to the sign both squares are the same expression. *)
Theorem C59_slope : forall a x, 0 < a < 1 / 2 -> 0 < x < 1 / 2 -> x <> a ->
  exists d p, is_derive (fun t => gap1 t a) x d /\ pressure1 x (Some a) None = Ret p /\ 0 <= d /\ 0 <= p /\ d * p = 0
    /\ (d / PI) ^ 2 - (mean_pressure a * p) ^ 2 = (2 * cos (PI * x)) ^ 2 * (sin (PI * x) ^ 2 - sin (PI * a) ^ 2).
Proof.
  intros a x Ha Hx N. pose proof PI_RGT_0 as P.
  pose proof (cos_pi_ge0 x ltac:(lra)) as Cx.
  assert (Pm : forall r, 0 < r -> forall y : R, ball x r y -> Rabs (y - x) < r) by (intros r _ y B; exact B).
  destruct (Rlt_le_dec x a) as [L|L].
  - exists 0, (pressure_psia (PI * a) x).
    assert (R : 0 < Rmin x (a - x)) by (apply Rmin_glb_lt; lra).
    assert (Pp : 0 < pressure_psia (PI * a) x) by (apply pressure_in; rewrite ?map_x_id; lra).
    split; [|split; [reflexivity|split; [lra|split; [lra|split; [ring|]]]]].
    + apply (is_derive_ext_loc (fun _ => 0)).
      * exists (mkposreal _ R). intros y B. apply Rabs_def2 in B. simpl in B.
        pose proof (Rmin_l x (a - x)). pose proof (Rmin_r x (a - x)).
        unfold minus, plus, opp in B; simpl in B.
        symmetry. apply gap_in. rewrite map_x_id; lra.
      * apply (is_derive_const (K := R_AbsRing) (V := R_NormedModule)).
    + pose proof (sin_pi_pos a ltac:(lra)) as S.
      unfold pressure_psia, mean_pressure. cbv zeta. rewrite map_x_id by lra.
      destruct (Rgt_dec _ _) as [G|Q].
      2: { exfalso. apply Q. apply (proj1 (trig_order a x ltac:(lra) ltac:(lra))). exact L. }
      assert (E : sqrt (sin (PI * a) ^ 2 - sin (PI * x) ^ 2) ^ 2 = sin (PI * a) ^ 2 - sin (PI * x) ^ 2).
      { apply pow2_sqrt. rewrite !s2. pose proof (cos_pi_ge0 a ltac:(lra)). nra. }
      set (q := sqrt _) in *.
      replace ((0 / PI) ^ 2 - (sin (PI * a) ^ 2 * (2 * cos (PI * x) / sin (PI * a) ^ 2 * q)) ^ 2)
        with (- (2 * cos (PI * x)) ^ 2 * q ^ 2) by (field; lra).
      rewrite E. ring.
  - assert (L' : a < x) by lra. pose proof (chi_gt0 a x ltac:(lra) L' ltac:(lra)) as Q.
    exists (2 * PI * cos (PI * x) * chi a x), 0.
    assert (R : 0 < Rmin (1 / 2 - x) (x - a)) by (apply Rmin_glb_lt; lra).
    split; [|split; [|split; [|split; [lra|split; [ring|]]]]].
    + apply (is_derive_ext_loc (fun t => gapf a t)); [|apply gapf_derive; lra].
      exists (mkposreal _ R). intros y B. apply Rabs_def2 in B. simpl in B.
      pose proof (Rmin_l (1 / 2 - x) (x - a)). pose proof (Rmin_r (1 / 2 - x) (x - a)).
      unfold minus, plus, opp in B; simpl in B.
      rewrite gap_out by (rewrite ?map_x_id; lra). rewrite map_x_id by lra. reflexivity.
    + unfold pressure1. rewrite pressure_out; [reflexivity|lra|rewrite map_x_id; lra].
    + apply Rmult_le_pos; [nra|lra].
    + pose proof (chi_sq a x ltac:(lra) ltac:(lra) ltac:(lra)) as E.
      replace ((2 * PI * cos (PI * x) * chi a x / PI) ^ 2 - (mean_pressure a * 0) ^ 2)
        with ((2 * cos (PI * x)) ^ 2 * chi a x ^ 2) by (field; lra).
      rewrite E. reflexivity.
Qed.
Print Assumptions C59_slope.

(** The two energy functions agree, and the energy is the work of the mean
    pressure on the mean displacement: [dE = -2 P dD] in the units of the
    code ([h p_wfc] for the energy, [p_wfc] for the pressure, [2 h] for the
    displacement). *)
Theorem C59_energy :
  (forall a, 0 <= a <= 1 / 2 -> elastic_energy (mean_pressure a) = Ret (elastic_energy_a a))
  /\ (forall m, 1 < m -> elastic_energy m = Exc AssertionErr)
  /\ (forall a, 0 < a < 1 / 2 -> exists dE dD : R,
       is_derive elastic_energy_a a dE /\ is_derive mean_displacement a dD
       /\ dE = - 2 * mean_pressure a * dD /\ 0 < dE /\ dD < 0).
Proof.
  split; [|split].
  - intros a _. apply energy_of_radius.
  - intros m H. unfold elastic_energy. destruct (Rle_dec m 1); [lra|reflexivity].
  - exact energy_derive_a.
Qed.
Print Assumptions C59_energy.

(** [_pressure] takes a contact radius or a mean pressure; the mean pressure
    is [pi] times the value of [mean_pressure].  With neither argument the
    function fails. *)
Theorem C59_arguments : forall x,
  (forall a, 0 <= a <= 1 / 2 -> pressure1 x None (Some (PI * mean_pressure a)) = pressure1 x (Some a) None)
  /\ pressure1 x None None = Exc NameErr.
Proof. intros x. split; [intros; apply pressure_by_mean; assumption|reflexivity]. Qed.
Print Assumptions C59_arguments.

(** The documented unit of the argument [mean_pressure] of [_pressure] is the
    unit of the function [mean_pressure]; with this unit the two ways do not
    agree: at full contact, [x = 1/4], the radius gives the pressure 1, the
    mean pressure 1 gives a different one. *)
Theorem C59_mean_pressure_unit_refuted :
  ~ (forall m x, 0 <= m <= 1 -> pressure1 x None (Some m) = pressure1 x (Some (contact_radius m)) None).
Proof.
  intros H. pose proof (H 1 (1 / 4) ltac:(lra)) as E. clear H. pose proof PI_RGT_0 as P. pose proof PI2_1 as P2.
  assert (R1 : contact_radius 1 = 1 / 2).
  { unfold contact_radius. rewrite sqrt_1, asin_1. field. lra. }
  rewrite R1 in E. unfold pressure1 in E. injection E as E.
  assert (M : map_x_on_0_05 (1 / 4) = 1 / 4) by (apply map_x_id; lra).
  assert (C4 : cos (PI * (1 / 4)) ^ 2 = 1 / 2).
  { replace (PI * (1 / 4)) with (PI / 4) by field. rewrite cos_PI4. unfold Rdiv. rewrite Rmult_1_l.
    rewrite pow_inv. rewrite pow2_sqrt by lra. lra. }
  assert (C0 : 0 < cos (PI * (1 / 4))) by (apply cos_gt_0; lra).
  assert (S4 : sin (PI * (1 / 4)) ^ 2 = 1 / 2) by (rewrite s2, C4; lra).
  (* right hand side: 2 cos sqrt (1 - 1/2) > 0 *)
  assert (RHS : 0 < pressure_psia (PI * (1 / 2)) (1 / 4)) by (apply pressure_in; rewrite ?M; lra).
  (* left hand side: sin^2 psia = 1 / PI < 1 / 2, the point is outside *)
  assert (LHS : pressure_psia (asin (sqrt (1 / PI))) (1 / 4) = 0).
  { unfold pressure_psia. cbv zeta. rewrite M.
    assert (I : 0 < 1 / PI < 1 / 2).
    { split; [apply Rdiv_lt_0_compat; lra|]. unfold Rdiv. rewrite !Rmult_1_l. apply Rinv_lt_contravar; lra. }
    destruct (Rgt_dec _ _) as [G|_]; [exfalso|reflexivity].
    assert (B : -1 <= sqrt (1 / PI) <= 1).
    { split; [pose proof (sqrt_pos (1 / PI)); lra|].
      apply Rle_trans with (sqrt 1); [apply sqrt_le_1; lra|rewrite sqrt_1; lra]. }
    assert (Ss : sin (asin (sqrt (1 / PI))) ^ 2 = 1 / PI) by (rewrite sin_asin by exact B; apply pow2_sqrt; lra).
    assert (Cs : 0 <= cos (asin (sqrt (1 / PI)))).
    { apply cos_ge_0; pose proof (asin_bound (sqrt (1 / PI))); lra. }
    rewrite s2 in Ss. nra. }
  rewrite LHS in E. lra.
Qed.
Print Assumptions C59_mean_pressure_unit_refuted.

(** Contact radius 1/4, mean pressure 1/2. *)
Example C59_nonvacuous :
  mean_pressure (1 / 4) = 1 / 2 /\ contact_radius (1 / 2) = 1 / 4
  /\ gap1 (9 / 8) (1 / 4) = 0 /\ 0 < gap1 (3 / 8) (1 / 4)
  /\ pressure1 0 (Some (1 / 4)) None = Ret (2 * sqrt 2)
  /\ exists x, mean_displacement (1 / 4) = - 1 / 4 - x /\ 0 < x.
Proof.
  assert (S4 : sin (PI * (1 / 4)) ^ 2 = 1 / 2).
  { replace (PI * (1 / 4)) with (PI / 4) by field. rewrite sin_PI4. unfold Rdiv. rewrite Rmult_1_l.
    rewrite pow_inv. rewrite pow2_sqrt by lra. lra. }
  assert (M : mean_pressure (1 / 4) = 1 / 2) by exact S4.
  pose proof (sin_pi_pos (1 / 4) ltac:(lra)) as S0.
  split; [exact M|]. split; [rewrite <- M; apply C59_inverse; lra|].
  destruct (C59_gap (1 / 4) ltac:(lra)) as (G1 & G2 & _).
  split; [apply G1; exists 1%Z; rewrite Rabs_pos_eq; simpl; lra|].
  split.
  { apply G2. intros n. destruct (Z_le_gt_dec n 0) as [L|L].
    - apply IZR_le in L. rewrite Rabs_pos_eq; lra.
    - assert (L1 : (1 <= n)%Z) by lia. apply IZR_le in L1. rewrite Rabs_left; lra. }
  split.
  { unfold pressure1, pressure_psia. cbv zeta. rewrite map_x_id by lra. rewrite Rmult_0_r, cos_0, sin_0, S4.
    destruct (Rgt_dec _ _) as [G|N].
    - f_equal. replace (1 / 2 - 0 ^ 2) with (/ 2) by lra. rewrite sqrt_inv.
      pose proof (sqrt_lt_R0 2 ltac:(lra)) as Q. pose proof (sqrt_sqrt 2 ltac:(lra)) as QQ.
      apply (Rmult_eq_reg_r (sqrt 2)); [|lra]. rewrite Rmult_assoc, Rinv_l by lra. lra.
    - exfalso. apply N. assert (cos (PI * (1 / 4)) ^ 2 = 1 / 2) by (rewrite s2 in S4; lra). nra. }
  exists (- (1 / 2) * ln (sin (PI * (1 / 4)))). split.
  - unfold mean_displacement. assert (C4 : cos (PI * (1 / 4)) ^ 2 = 1 / 2) by (rewrite s2 in S4; lra).
    rewrite S4, C4. field.
  - assert (ln (sin (PI * (1 / 4))) < 0) by (rewrite <- ln_1; apply ln_increasing; nra). lra.
Qed.
