(** * Proofs about the Hertz fields at the surface *)

From Coq Require Import Reals Lra Lia Psatz.
From Coquelicot Require Import Coquelicot.
From Verif Require Import Hertz_Model Calc Hertz_Proofs.
Local Open Scope R_scope.

Definition pz (nu r : R) : R := fst (fst (surface_stress1 nu r)).
Definition sr (nu r : R) : R := snd (fst (surface_stress1 nu r)).
Definition st (nu r : R) : R := snd (surface_stress1 nu r).

(** The formulas without the masks. *)
Definition rad_part (r : R) : R := (1 - (1 - r ^ 2) * sqrt (1 - r ^ 2)) / (3 * r ^ 2).

Lemma in_mask0_true : forall r, Rabs r < / 10 ^ 6 -> in_mask0 r = true.
Proof. intros r H. unfold in_mask0. destruct (Rlt_dec _ _); [reflexivity|contradiction]. Qed.
Lemma in_mask0_false : forall r, / 10 ^ 6 <= r -> in_mask0 r = false.
Proof.
  intros r H. unfold in_mask0. destruct (Rlt_dec _ _); [|reflexivity].
  rewrite Rabs_pos_eq in r0; [lra|]. pose proof (pow_lt 10 6 ltac:(lra)).
  pose proof (Rinv_0_lt_compat _ H0). lra.
Qed.
Lemma eps_pos : 0 < / 10 ^ 6.
Proof. apply Rinv_0_lt_compat. apply pow_lt. lra. Qed.
Lemma eps_lt1 : / 10 ^ 6 < 1 / 2.
Proof. lra. Qed.

Lemma surface_center : forall nu r, Rabs r < / 10 ^ 6 ->
  pz nu r = 1 /\ sr nu r = - (1 + 2 * nu) / 2 /\ st nu r = - (1 + 2 * nu) / 2.
Proof.
  intros nu r H. unfold pz, sr, st, surface_stress1. rewrite in_mask0_true by exact H. simpl.
  repeat split; lra.
Qed.
Lemma surface_in : forall nu r, / 10 ^ 6 <= r -> r < 1 ->
  pz nu r = sqrt (1 - r ^ 2)
  /\ sr nu r = (1 - 2 * nu) * rad_part r - sqrt (1 - r ^ 2)
  /\ st nu r = - (1 - 2 * nu) * rad_part r - 2 * nu * sqrt (1 - r ^ 2).
Proof.
  intros nu r H1 H2. pose proof eps_pos. unfold pz, sr, st, surface_stress1, in_maski.
  rewrite in_mask0_false by exact H1. destruct (Rlt_dec r 1); [|lra]. cbn [negb andb fst snd].
  assert (0 < r ^ 2) by (apply pow_lt; lra).
  rewrite fpow_3_2 by nra. unfold rad_part. repeat split; try reflexivity; field; lra.
Qed.
Lemma surface_out : forall nu r, 1 <= r ->
  pz nu r = 0 /\ sr nu r = (1 - 2 * nu) / (3 * r ^ 2) /\ st nu r = - ((1 - 2 * nu) / (3 * r ^ 2)).
Proof.
  intros nu r H. pose proof eps_lt1. unfold pz, sr, st, surface_stress1, in_maski.
  rewrite in_mask0_false by lra. destruct (Rlt_dec r 1); [lra|]. repeat split.
Qed.
(** Beyond 10^-6 one formula covers both sides of the contact edge because the
    square root of a negative number is 0 in Coq. *)
Lemma surface_any : forall nu r, / 10 ^ 6 <= r ->
  pz nu r = sqrt (1 - r ^ 2)
  /\ sr nu r = (1 - 2 * nu) * rad_part r - sqrt (1 - r ^ 2)
  /\ st nu r = - (1 - 2 * nu) * rad_part r - 2 * nu * sqrt (1 - r ^ 2).
Proof.
  intros nu r H. destruct (Rlt_dec r 1) as [L|L]; [apply surface_in; assumption|].
  assert (0 < r ^ 2) by (apply pow_lt; lra). assert (1 <= r ^ 2) by nra.
  destruct (surface_out nu r ltac:(lra)) as [-> [-> ->]].
  assert (S0 : sqrt (1 - r ^ 2) = 0) by (apply sqrt_neg_0; lra).
  unfold rad_part. rewrite S0. repeat split; field; lra.
Qed.

Lemma surface_trace : forall nu r, 0 <= r -> sr nu r + st nu r = - (1 + 2 * nu) * pz nu r.
Proof.
  intros nu r H. destruct (Rlt_dec r (/ 10 ^ 6)).
  - destruct (surface_center nu r) as [-> [-> ->]]; [rewrite Rabs_pos_eq by exact H; assumption|]. field.
  - destruct (surface_any nu r) as [-> [-> ->]]; [lra|]. ring.
Qed.
Lemma pressure_range : forall nu r, 0 <= r -> 0 <= pz nu r <= 1.
Proof.
  intros nu r H. destruct (Rlt_dec r (/ 10 ^ 6)).
  - destruct (surface_center nu r) as [-> _]; [rewrite Rabs_pos_eq by exact H; assumption|]. lra.
  - destruct (surface_any nu r) as [-> _]; [lra|]. split; [apply sqrt_pos|].
    rewrite <- sqrt_1 at 2. apply sqrt_le_1_alt. nra.
Qed.
Lemma pressure_support : forall nu r, 0 <= r -> (0 < pz nu r <-> r < 1).
Proof.
  intros nu r H. pose proof eps_lt1. destruct (Rlt_dec r (/ 10 ^ 6)).
  - destruct (surface_center nu r) as [-> _]; [rewrite Rabs_pos_eq by exact H; assumption|]. split; lra.
  - destruct (surface_any nu r) as [-> _]; [lra|]. split; intros L.
    + apply sqrt_lt_0_alt in L || idtac. destruct (Rlt_dec r 1); [assumption|].
      exfalso. rewrite (sqrt_neg_0 (1 - r ^ 2)) in L by nra. lra.
    + apply sqrt_lt_R0. nra.
Qed.

(** Deviation from the value at the centre. *)
Lemma rad_part_half : forall r, 0 < r -> r < 1 -> Rabs (rad_part r - 1 / 2) <= r ^ 2 / 6.
Proof.
  intros r H0 H1. unfold rad_part. assert (HT : 0 < r ^ 2 < 1) by (simpl; nra).
  set (w := sqrt (1 - r ^ 2)). assert (Hw : 0 <= w) by apply sqrt_pos.
  assert (E : w * w = 1 - r ^ 2) by (apply sqrt_sqrt; lra).
  assert (Hw1 : w < 1) by nra.
  replace (r ^ 2) with (1 - w * w) in * by lra.
  replace ((1 - (1 - (1 - w * w)) * w) / (3 * (1 - w * w)) - 1 / 2)
    with (- ((2 * w + 1) * (1 - w) / (6 * (1 + w)))).
  2: { field. split; nra. }
  rewrite Rabs_Ropp, Rabs_pos_eq.
  - replace ((1 - w * w) / 6) with ((1 + w) * (1 + w) * (1 - w) / (6 * (1 + w))) by (field; lra).
    apply Rmult_le_compat_r; [left; apply Rinv_0_lt_compat; lra|].
    apply Rmult_le_compat_r; [lra|]. nra.
  - apply Rmult_le_pos; [apply Rmult_le_pos; lra|left; apply Rinv_0_lt_compat; lra].
Qed.
Lemma sqrt_center : forall r, 0 <= r -> r < 1 -> Rabs (sqrt (1 - r ^ 2) - 1) <= r ^ 2.
Proof.
  intros r H0 H1. set (w := sqrt (1 - r ^ 2)). assert (Hw : 0 <= w) by apply sqrt_pos.
  assert (E : w * w = 1 - r ^ 2) by (apply sqrt_sqrt; nra).
  assert (w <= 1) by nra. rewrite Rabs_left1 by lra. nra.
Qed.
Lemma near_center : forall nu r, 0 <= r -> r < 1 ->
  Rabs (pz nu r - 1) <= r ^ 2
  /\ Rabs (sr nu r + (1 + 2 * nu) / 2) <= (1 + Rabs (1 - 2 * nu) / 6) * r ^ 2
  /\ Rabs (st nu r + (1 + 2 * nu) / 2) <= (2 * Rabs nu + Rabs (1 - 2 * nu) / 6) * r ^ 2.
Proof.
  intros nu r H0 H1. assert (H2 : 0 <= r ^ 2) by apply pow2_ge_0.
  pose proof (Rabs_pos nu). pose proof (Rabs_pos (1 - 2 * nu)).
  destruct (Rlt_dec r (/ 10 ^ 6)) as [L|L].
  - destruct (surface_center nu r) as [-> [-> ->]]; [rewrite Rabs_pos_eq by exact H0; assumption|].
    replace (1 - 1) with 0 by ring. replace (- (1 + 2 * nu) / 2 + (1 + 2 * nu) / 2) with 0 by field.
    rewrite Rabs_R0. repeat split; try apply Rmult_le_pos; lra.
  - pose proof eps_pos. destruct (surface_in nu r) as [-> [-> ->]]; [lra|exact H1|].
    pose proof (sqrt_center r ltac:(lra) H1) as Q. pose proof (rad_part_half r ltac:(lra) H1) as P.
    split; [exact Q|]. split.
    + replace ((1 - 2 * nu) * rad_part r - sqrt (1 - r ^ 2) + (1 + 2 * nu) / 2)
        with ((1 - 2 * nu) * (rad_part r - 1 / 2) + - (sqrt (1 - r ^ 2) - 1)) by field.
      eapply Rle_trans; [apply Rabs_triang|]. rewrite Rabs_mult, Rabs_Ropp. nra.
    + replace (- (1 - 2 * nu) * rad_part r - 2 * nu * sqrt (1 - r ^ 2) + (1 + 2 * nu) / 2)
        with (- ((1 - 2 * nu) * (rad_part r - 1 / 2)) + - (2 * nu * (sqrt (1 - r ^ 2) - 1))) by field.
      eapply Rle_trans; [apply Rabs_triang|]. rewrite !Rabs_Ropp, !Rabs_mult.
      rewrite (Rabs_pos_eq 2) by lra. nra.
Qed.

(** Continuity beyond 10^-6, in particular at the contact edge. *)
Lemma surface_continuous : forall nu r, / 10 ^ 6 < r ->
  continuous (pz nu) r /\ continuous (sr nu) r /\ continuous (st nu) r.
Proof.
  intros nu r H. pose proof eps_pos as HE.
  assert (CW : continuous (fun t => sqrt (1 - t ^ 2)) r).
  { apply continuous_sqrt_comp. apply (ex_derive_continuous (fun t => 1 - t ^ 2)). auto_derive. exact I. }
  assert (CR : continuous rad_part r).
  { unfold rad_part. apply (continuous_mult (K := R_AbsRing)).
    - apply (continuous_minus (V := R_NormedModule)); [apply continuous_const|].
      apply (continuous_mult (K := R_AbsRing)); [|exact CW].
      apply (ex_derive_continuous (fun t => 1 - t ^ 2)). auto_derive. exact I.
    - apply (ex_derive_continuous (fun t => / (3 * t ^ 2))). auto_derive. nra. }
  assert (LOC : locally r (fun t => / 10 ^ 6 <= t)).
  { assert (D : 0 < r - / 10 ^ 6) by lra. exists (mkposreal _ D). intros t Ht.
    unfold ball in Ht; simpl in Ht. unfold AbsRing_ball, abs, minus, plus, opp in Ht; simpl in Ht.
    apply Rabs_def2 in Ht. simpl. lra. }
  repeat split.
  - apply (continuous_ext_loc _ (fun t => sqrt (1 - t ^ 2))); [|exact CW].
    revert LOC. apply filter_imp. intros t Ht. symmetry. apply surface_any; exact Ht.
  - apply (continuous_ext_loc _ (fun t => (1 - 2 * nu) * rad_part t - sqrt (1 - t ^ 2))).
    + revert LOC. apply filter_imp. intros t Ht. symmetry. apply surface_any; exact Ht.
    + apply (continuous_minus (V := R_NormedModule)); [|exact CW].
      apply (continuous_mult (K := R_AbsRing)); [apply continuous_const|exact CR].
  - apply (continuous_ext_loc _ (fun t => - (1 - 2 * nu) * rad_part t - 2 * nu * sqrt (1 - t ^ 2))).
    + revert LOC. apply filter_imp. intros t Ht. symmetry. apply surface_any; exact Ht.
    + apply (continuous_minus (V := R_NormedModule)).
      * apply (continuous_mult (K := R_AbsRing)); [apply continuous_const|exact CR].
      * apply (continuous_mult (K := R_AbsRing)); [apply continuous_const|exact CW].
Qed.

(** ** The pressure integral *)

Lemma int_ring : forall a b, 0 <= a -> a <= b -> b <= 1 ->
  is_RInt (fun r => r * sqrt (1 - r ^ 2)) a b
    (- ((1 - b ^ 2) * sqrt (1 - b ^ 2)) / 3 - - ((1 - a ^ 2) * sqrt (1 - a ^ 2)) / 3).
Proof.
  intros a b Ha Hab Hb.
  assert (CW : forall x, continuous (fun t => sqrt (1 - t ^ 2)) x).
  { intros x. apply continuous_sqrt_comp. apply (ex_derive_continuous (fun t => 1 - t ^ 2)). auto_derive. exact I. }
  apply (is_RInt_derive_open (fun r => - ((1 - r ^ 2) * sqrt (1 - r ^ 2)) / 3)).
  - exact Hab.
  - intros x _. apply (continuous_mult (K := R_AbsRing)); [|apply continuous_const].
    apply (continuous_opp (V := R_NormedModule)). apply (continuous_mult (K := R_AbsRing)); [|apply CW].
    apply (ex_derive_continuous (fun t => 1 - t ^ 2)). auto_derive. exact I.
  - intros x _. apply (continuous_mult (K := R_AbsRing)); [apply continuous_id|apply CW].
  - intros x Hx. assert (P : 0 < 1 - x ^ 2) by nra.
    auto_derive; [lra|].
    assert (Hs : 0 < sqrt (1 - x ^ 2)) by (apply sqrt_lt_R0; lra).
    assert (Q : sqrt (1 - x ^ 2) * sqrt (1 - x ^ 2) = 1 - x ^ 2) by (apply sqrt_sqrt; lra).
    replace (1 + - (x * (x * 1))) with (1 - x ^ 2) by ring.
    set (w := sqrt (1 - x ^ 2)) in *. clearbody w.
    rewrite <- Q. field. lra.
Qed.

Lemma pressure_integral : forall nu,
  is_RInt (fun r => 2 * PI * r * pz nu r) 0 1
    (2 * PI * ((/ 10 ^ 6) ^ 2 / 2 + (1 - (/ 10 ^ 6) ^ 2) * sqrt (1 - (/ 10 ^ 6) ^ 2) / 3)).
Proof.
  intros nu. pose proof eps_pos as H0. pose proof eps_lt1 as H1. set (e := / 10 ^ 6) in *.
  apply (is_RInt_ext (fun r => scal (2 * PI) (r * pz nu r))).
  { intros r _. change (2 * PI * (r * pz nu r) = 2 * PI * r * pz nu r). ring. }
  apply (is_RInt_scal (V := R_NormedModule) (fun r => r * pz nu r)).
  apply (is_RInt_Chasles (V := R_NormedModule) _ 0 e 1 (e ^ 2 / 2) ((1 - e ^ 2) * sqrt (1 - e ^ 2) / 3)).
  - apply (is_RInt_ext (fun r => r)).
    { intros r Hr. rewrite Rmin_left, Rmax_right in Hr by lra.
      destruct (surface_center nu r) as [-> _]; [rewrite Rabs_pos_eq; unfold e in *; lra|]. symmetry. exact (Rmult_1_r r). }
    replace (e ^ 2 / 2) with (minus (e ^ 2 / 2) (0 ^ 2 / 2)).
    2: { unfold minus, plus, opp; simpl. field. }
    apply (is_RInt_derive (V := R_CompleteNormedModule) (fun r => r ^ 2 / 2)).
    + intros x _. auto_derive; [exact I|]. field.
    + intros x _. apply continuous_id.
  - apply (is_RInt_ext (fun r => r * sqrt (1 - r ^ 2))).
    { intros r Hr. rewrite Rmin_left, Rmax_right in Hr by lra.
      destruct (surface_in nu r) as [-> _]; [unfold e in *; lra|lra|]. reflexivity. }
    replace ((1 - e ^ 2) * sqrt (1 - e ^ 2) / 3)
      with (- ((1 - 1 ^ 2) * sqrt (1 - 1 ^ 2)) / 3 - - ((1 - e ^ 2) * sqrt (1 - e ^ 2)) / 3).
    + apply int_ring; lra.
    + replace (1 - 1 ^ 2) with 0 by ring. rewrite sqrt_0. field.
Qed.
(** The regularisation at the centre adds less than 10^-24. *)
Lemma pressure_integral_bound : 
  2 / 3 <= 2 * ((/ 10 ^ 6) ^ 2 / 2 + (1 - (/ 10 ^ 6) ^ 2) * sqrt (1 - (/ 10 ^ 6) ^ 2) / 3)
    <= 2 / 3 + / 10 ^ 24.
Proof.
  pose proof eps_pos as H0. pose proof eps_lt1 as H1.
  replace (/ 10 ^ 24) with ((/ 10 ^ 6) ^ 4) by field.
  set (e := / 10 ^ 6) in *. clearbody e.
  set (w := sqrt (1 - e ^ 2)). assert (Hw : 0 <= w) by apply sqrt_pos.
  assert (E : w * w = 1 - e ^ 2) by (apply sqrt_sqrt; nra).
  assert (w <= 1) by nra. set (t := e ^ 2) in *. assert (Ht : 0 < t) by (apply pow_lt; exact H0).
  assert (Ht' : t < 1 / 4) by (unfold t; nra).
  replace (e ^ 4) with (t * t) by (unfold t; ring). clearbody t w.
  assert (L1 : 1 - t <= w) by nra.
  assert (L2 : w <= 1 - t / 2) by nra.
  assert (L3 : 1 - t / 2 - t * t / 2 <= w).
  { destruct (Rle_lt_dec (1 - t / 2 - t * t / 2) w) as [Q|Q]; [exact Q|].
    assert (w * w < (1 - t / 2 - t * t / 2) * (1 - t / 2 - t * t / 2)) by nra. nra. }
  split; nra.
Qed.

Lemma load_integral : forall nu N Rs Es, 0 < Rs -> 0 < Es -> 0 < N ->
  exists total,
    is_RInt (fun r => 2 * PI * r * (snd (radius_and_pressure N Rs Es) * pz nu r)) 0 1 total
    /\ N <= fst (radius_and_pressure N Rs Es) ^ 2 * total <= N * (1 + 3 / 2 * / 10 ^ 24).
Proof.
  intros nu N Rs Es HR HE HN.
  pose proof (radius_gt0 Rs Es HR HE N HN) as Ha. pose proof (peak_pressure Rs Es N) as P.
  set (a := fst (radius_and_pressure N Rs Es)) in *. set (p0 := snd (radius_and_pressure N Rs Es)) in *.
  pose proof (pressure_integral nu) as I0. pose proof pressure_integral_bound as B.
  set (J := (/ 10 ^ 6) ^ 2 / 2 + (1 - (/ 10 ^ 6) ^ 2) * sqrt (1 - (/ 10 ^ 6) ^ 2) / 3) in *.
  exists (p0 * (2 * PI * J)). split.
  - apply (is_RInt_ext (fun r => scal p0 (2 * PI * r * pz nu r))).
    { intros r _. change (p0 * (2 * PI * r * pz nu r) = 2 * PI * r * (p0 * pz nu r)). ring. }
    apply (is_RInt_scal (V := R_NormedModule) _ 0 1 p0 _ I0).
  - pose proof PI_RGT_0. replace (a ^ 2 * (p0 * (2 * PI * J))) with (N * (3 / 2 * (2 * J))).
    2: { rewrite P. field. split; lra. }
    split; [|]; nra.
Qed.
