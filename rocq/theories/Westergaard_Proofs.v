(** * Proofs about the Westergaard solution *)

From Coq Require Import Reals Lra Lia Psatz.
From Coquelicot Require Import Coquelicot.
From Verif Require Import Py Calc Westergaard_Model.
Local Open Scope R_scope.

(** ** The folding of the position onto [0, 1/2] *)

Lemma frac_part_unique : forall x (n : Z) f, x = IZR n + f -> 0 <= f < 1 -> frac_part x = f.
Proof.
  intros x n f E H. unfold frac_part, Int_part.
  rewrite <- (tech_up x (n + 1)).
  - rewrite minus_IZR, plus_IZR. lra.
  - rewrite plus_IZR. lra.
  - rewrite plus_IZR. lra.
Qed.
Lemma frac_part_split : forall x, exists n : Z, x = IZR n + frac_part x /\ 0 <= frac_part x < 1.
Proof.
  intros x. exists (Int_part x). split; [unfold frac_part; lra|].
  pose proof (base_fp x). lra.
Qed.

Lemma map_x_spec : forall x, exists n : Z,
  (map_x_on_0_05 x = x - IZR n \/ map_x_on_0_05 x = IZR n - x) /\ 0 <= map_x_on_0_05 x <= 1 / 2.
Proof.
  intros x. unfold map_x_on_0_05, mod1.
  destruct (frac_part_split (x + 1 / 2)) as (n & E & H). exists n.
  unfold Rabs. destruct (Rcase_abs _); lra.
Qed.
Lemma map_x_of : forall x (n : Z) t, 0 <= t <= 1 / 2 -> (x = IZR n + t \/ x = IZR n - t) -> map_x_on_0_05 x = t.
Proof.
  intros x n t Ht [E|E]; unfold map_x_on_0_05, mod1.
  - destruct (Req_dec t (1 / 2)) as [T|T].
    + rewrite (frac_part_unique (x + 1 / 2) (n + 1) 0); [|rewrite plus_IZR; lra|lra].
      rewrite Rabs_left by lra. lra.
    + rewrite (frac_part_unique (x + 1 / 2) n (t + 1 / 2)); [|lra|lra].
      rewrite Rabs_pos_eq by lra. lra.
  - rewrite (frac_part_unique (x + 1 / 2) n (1 / 2 - t)); [|lra|lra].
    rewrite Rabs_left1 by lra. lra.
Qed.
Lemma map_x_id : forall x, 0 <= x <= 1 / 2 -> map_x_on_0_05 x = x.
Proof. intros x H. apply (map_x_of x 0 x H). left. simpl. lra. Qed.
Lemma map_x_abs : forall x, - (1 / 2) <= x <= 1 / 2 -> map_x_on_0_05 x = Rabs x.
Proof.
  intros x H. apply (map_x_of x 0). 
  - unfold Rabs; destruct (Rcase_abs x); lra.
  - unfold Rabs; destruct (Rcase_abs x); simpl; lra.
Qed.
Lemma map_x_period : forall x (n : Z), map_x_on_0_05 (x + IZR n) = map_x_on_0_05 x.
Proof.
  intros x n. destruct (map_x_spec x) as (m & E & H).
  apply (map_x_of _ (m + n)); [exact H|]. rewrite plus_IZR. lra.
Qed.
Lemma map_x_even : forall x, map_x_on_0_05 (- x) = map_x_on_0_05 x.
Proof.
  intros x. destruct (map_x_spec x) as (m & E & H).
  apply (map_x_of _ (- m)); [exact H|]. rewrite opp_IZR. lra.
Qed.
(** [sin^2 (pi x)] only depends on the folded position. *)
Lemma cos_int : forall n : Z, cos (IZR n * PI) ^ 2 = 1.
Proof.
  intros n. pose proof (sin2_cos2 (IZR n * PI)) as E.
  assert (S : sin (IZR n * PI) = 0) by (apply sin_eq_0_1; exists n; reflexivity).
  rewrite S in E. unfold Rsqr in E. lra.
Qed.
Lemma sin_int : forall n : Z, sin (IZR n * PI) = 0.
Proof. intros n. apply sin_eq_0_1; exists n; reflexivity. Qed.
Lemma sin2_shift : forall x (n : Z), sin (PI * (x + IZR n)) ^ 2 = sin (PI * x) ^ 2.
Proof.
  intros x n. replace (PI * (x + IZR n)) with (PI * x + IZR n * PI) by ring.
  rewrite sin_plus, sin_int. replace (sin (PI * x) ^ 2) with (sin (PI * x) ^ 2 * 1) by ring.
  rewrite <- (cos_int n). ring.
Qed.
Lemma sin2_map : forall x, sin (PI * map_x_on_0_05 x) ^ 2 = sin (PI * x) ^ 2.
Proof.
  intros x. destruct (map_x_spec x) as (n & [E|E] & H); rewrite E.
  - replace (x - IZR n) with (x + IZR (- n)) by (rewrite opp_IZR; ring). apply sin2_shift.
  - replace (PI * (IZR n - x)) with (- (PI * (x + IZR (- n)))) by (rewrite opp_IZR; ring).
    rewrite sin_neg. rewrite <- (sin2_shift x (- n)). ring.
Qed.

(** ** Inverse relations *)
Lemma sin_pi_pos : forall a, 0 < a <= 1 / 2 -> 0 < sin (PI * a).
Proof. intros a H. pose proof PI_RGT_0. apply sin_gt_0; nra. Qed.
Lemma mp_of_cr : forall m, 0 <= m <= 1 -> mean_pressure (contact_radius m) = m.
Proof.
  intros m H. unfold mean_pressure, contact_radius. pose proof PI_RGT_0.
  replace (PI * (1 / PI * asin (sqrt m))) with (asin (sqrt m)) by (field; lra).
  rewrite sin_asin.
  - simpl. rewrite Rmult_1_r. apply sqrt_sqrt. lra.
  - split; [pose proof (sqrt_pos m); lra|]. rewrite <- sqrt_1. apply sqrt_le_1; lra.
Qed.
Lemma cr_of_mp : forall a, 0 <= a <= 1 / 2 -> contact_radius (mean_pressure a) = a.
Proof.
  intros a H. unfold mean_pressure, contact_radius. pose proof PI_RGT_0.
  rewrite sqrt_pow2 by (apply sin_ge_0; nra).
  rewrite asin_sin by (split; nra). field. lra.
Qed.
Lemma cr_range : forall m, 0 <= m <= 1 -> 0 <= contact_radius m <= 1 / 2.
Proof.
  intros m H. unfold contact_radius. pose proof PI_RGT_0 as P.
  pose proof (asin_bound (sqrt m)) as B.
  assert (Q : 0 <= asin (sqrt m)).
  { destruct (Rle_dec 0 (asin (sqrt m))) as [A|A]; [exact A|exfalso].
    assert (L : sin (asin (sqrt m)) < 0) by (apply sin_lt_0_var; lra).
    rewrite sin_asin in L.
    - pose proof (sqrt_pos m). lra.
    - split; [pose proof (sqrt_pos m); lra|]. rewrite <- sqrt_1. apply sqrt_le_1; lra. }
  assert (I : 0 < 1 / PI) by (apply Rdiv_lt_0_compat; lra).
  split; [nra|]. apply (Rmult_le_reg_l PI); [exact P|].
  replace (PI * (1 / PI * asin (sqrt m))) with (asin (sqrt m)) by (field; lra). lra.
Qed.
Lemma mp_range : forall a, 0 <= mean_pressure a <= 1.
Proof.
  intros a. unfold mean_pressure. pose proof (sin2_cos2 (PI * a)) as E. unfold Rsqr in E. nra.
Qed.
Lemma mp_increasing : forall a b, 0 <= a -> a < b -> b <= 1 / 2 -> mean_pressure a < mean_pressure b.
Proof.
  intros a b Ha H Hb. unfold mean_pressure. pose proof PI_RGT_0.
  assert (0 <= sin (PI * a)) by (apply sin_ge_0; nra).
  assert (sin (PI * a) < sin (PI * b)) by (apply sin_increasing_1; nra).
  nra.
Qed.

(** ** Pressure *)
Lemma trig_order : forall a t, 0 <= a <= 1 / 2 -> 0 <= t <= 1 / 2 ->
  (t < a <-> cos (PI * t) > cos (PI * a)).
Proof.
  intros a t Ha Ht. pose proof PI_RGT_0. split; intros L.
  - apply cos_decreasing_1; nra.
  - destruct (Rlt_le_dec t a) as [Q|Q]; [exact Q|exfalso].
    destruct (Req_dec t a) as [E|E]; [subst; lra|].
    assert (cos (PI * t) < cos (PI * a)) by (apply cos_decreasing_1; nra). lra.
Qed.
Lemma s2 : forall x, sin x ^ 2 = 1 - cos x ^ 2.
Proof. intros x. pose proof (sin2_cos2 x) as E. unfold Rsqr in E. lra. Qed.
Lemma cos_pi_ge0 : forall t, 0 <= t <= 1 / 2 -> 0 <= cos (PI * t).
Proof. intros t H. pose proof PI_RGT_0. apply cos_ge_0; nra. Qed.

Lemma pressure_in : forall a x, 0 < a <= 1 / 2 -> map_x_on_0_05 x < a -> 0 < pressure_psia (PI * a) x.
Proof.
  intros a x Ha L. destruct (map_x_spec x) as (_ & _ & H).
  unfold pressure_psia. cbv zeta. set (t := map_x_on_0_05 x) in *.
  assert (G : cos (PI * t) > cos (PI * a)) by (apply (proj1 (trig_order a t ltac:(lra) ltac:(lra))); exact L).
  destruct (Rgt_dec _ _) as [_|N]; [|contradiction].
  pose proof (sin_pi_pos a Ha). pose proof (cos_pi_ge0 a ltac:(lra)).
  apply Rmult_lt_0_compat.
  - apply Rdiv_lt_0_compat; [lra|nra].
  - apply sqrt_lt_R0. rewrite !s2. nra.
Qed.
Lemma pressure_out : forall a x, 0 <= a <= 1 / 2 -> a <= map_x_on_0_05 x -> pressure_psia (PI * a) x = 0.
Proof.
  intros a x Ha L. destruct (map_x_spec x) as (_ & _ & H).
  unfold pressure_psia. cbv zeta. set (t := map_x_on_0_05 x) in *.
  destruct (Rgt_dec _ _) as [G|_]; [|reflexivity].
  apply (proj2 (trig_order a t Ha H)) in G; lra.
Qed.

(** ** Gap *)
Definition chi (a x : R) : R := sqrt (sin (PI * x) ^ 2 - sin (PI * a) ^ 2).
Definition lnq (a x : R) : R := ln ((sin (PI * x) + chi a x) / sin (PI * a)).
Definition gapf (a x : R) : R := sin (PI * x) * chi a x - sin (PI * a) ^ 2 * lnq a x.

Lemma gap_in : forall a x, map_x_on_0_05 x <= a -> gap1 x a = 0.
Proof.
  intros a x L. unfold gap1, displacement1, sl_out. cbv zeta. rewrite sin2_map.
  destruct (Rgt_dec _ _) as [G|_]; [lra|]. cbn [andb]. ring.
Qed.
Lemma gap_out : forall a x, 0 < a <= 1 / 2 -> a <= map_x_on_0_05 x -> gap1 x a = gapf a (map_x_on_0_05 x).
Proof.
  intros a x Ha L. destruct (map_x_spec x) as (_ & _ & H).
  unfold gap1, displacement1, sl_out. cbv zeta. rewrite <- (sin2_map x). set (t := map_x_on_0_05 x) in *.
  unfold gapf, lnq, chi. pose proof (sin_pi_pos a Ha) as P.
  destruct (Rgt_dec _ _) as [G|G].
  - destruct (Rlt_dec _ _) as [_|N]; [|lra]. cbn [andb]. ring.
  - assert (E : t = a) by lra. rewrite E. cbn [andb].
    replace (sin (PI * a) ^ 2 - sin (PI * a) ^ 2) with 0 by ring. rewrite sqrt_0.
    replace ((sin (PI * a) + 0) / sin (PI * a)) with 1 by (field; lra). rewrite ln_1. ring.
Qed.

Lemma chi_pos : forall a x, 0 < a -> a < x -> x <= 1 / 2 -> 0 < sin (PI * x) ^ 2 - sin (PI * a) ^ 2.
Proof.
  intros a x Ha L H. pose proof (mp_increasing a x ltac:(lra) L H) as M. unfold mean_pressure in M. lra.
Qed.
Lemma chi_nn : forall a x, 0 < a -> a <= x -> x <= 1 / 2 -> 0 <= sin (PI * x) ^ 2 - sin (PI * a) ^ 2.
Proof.
  intros a x Ha [L|L] H; [left; apply chi_pos; assumption|subst; lra].
Qed.
Lemma chi_sq : forall a x, 0 < a -> a <= x -> x <= 1 / 2 -> chi a x ^ 2 = sin (PI * x) ^ 2 - sin (PI * a) ^ 2.
Proof.
  intros a x Ha L H. unfold chi. pose proof (chi_nn a x Ha L H) as N.
  set (y := sin (PI * x) ^ 2 - sin (PI * a) ^ 2) in *.
  replace (sqrt y ^ 2) with (sqrt y * sqrt y) by ring. apply sqrt_sqrt. exact N.
Qed.

Lemma chi_gt0 : forall a x, 0 < a -> a < x -> x <= 1 / 2 -> 0 < chi a x.
Proof. intros a x Ha L H. apply sqrt_lt_R0, chi_pos; assumption. Qed.
Lemma chi_ge0 : forall a x, 0 <= chi a x.
Proof. intros. apply sqrt_pos. Qed.
Lemma chi_derive : forall a x, 0 < a -> a < x -> x <= 1 / 2 ->
  is_derive (fun t => chi a t) x (PI * cos (PI * x) * sin (PI * x) / chi a x).
Proof.
  intros a x Ha L H. pose proof (chi_gt0 a x Ha L H) as Q. unfold chi in *.
  pose proof (chi_pos a x Ha L H) as P.
  evar_last.
  - apply (is_derive_comp sqrt (fun t => sin (PI * t) ^ 2 - sin (PI * a) ^ 2)).
    + apply is_derive_Reals, derivable_pt_lim_sqrt. exact P.
    + auto_derive; [trivial|reflexivity].
  - unfold scal; simpl; unfold mult; simpl. field. simpl in Q. lra.
Qed.
Lemma lnq_derive : forall a x, 0 < a -> a < x -> x <= 1 / 2 ->
  is_derive (fun t => lnq a t) x (PI * cos (PI * x) / chi a x).
Proof.
  intros a x Ha L H. unfold lnq. pose proof (chi_gt0 a x Ha L H) as Q.
  pose proof (chi_derive a x Ha L H) as D.
  pose proof (sin_pi_pos a ltac:(lra)) as Pa. pose proof (sin_pi_pos x ltac:(lra)) as Px.
  pose proof (is_derive_unique _ _ _ D) as U.
  auto_derive.
  - split; [eexists; exact D|]. split; [|trivial].
    apply Rdiv_lt_0_compat; lra.
  - replace (Derive (fun x0 : R => chi a x0) x) with (PI * cos (PI * x) * sin (PI * x) / chi a x) by (symmetry; exact U).
    field. repeat split; lra.
Qed.
Lemma gapf_derive : forall a x, 0 < a -> a < x -> x <= 1 / 2 ->
  is_derive (fun t => gapf a t) x (2 * PI * cos (PI * x) * chi a x).
Proof.
  intros a x Ha L H. unfold gapf. pose proof (chi_gt0 a x Ha L H) as Q.
  pose proof (lnq_derive a x Ha L H) as D. pose proof (chi_derive a x Ha L H) as Dc.
  pose proof (is_derive_unique _ _ _ D) as UD. pose proof (is_derive_unique _ _ _ Dc) as UC.
  auto_derive.
  - split; [eexists; exact Dc|]. split; [eexists; exact D|trivial].
  - replace (Derive (fun x0 : R => chi a x0) x) with (PI * cos (PI * x) * sin (PI * x) / chi a x) by (symmetry; exact UC).
    replace (Derive (fun x0 : R => lnq a x0) x) with (PI * cos (PI * x) / chi a x) by (symmetry; exact UD).
    pose proof (chi_sq a x Ha ltac:(lra) H) as E. field [E]. lra.
Qed.
