(** * The influence coefficient of a uniformly loaded pixel *)

From Coq Require Import Reals Lra Lia ZArith.
From Coquelicot Require Import Coquelicot.
From Verif Require Import Free_Model.
Local Open Scope R_scope.

Definition rad (u v : R) : R := sqrt (u * u + v * v).
(** Antiderivative of [1 / rad] with respect to both arguments. *)
Definition prim (u v : R) : R := u * ln (v + rad u v) + v * ln (u + rad u v).

Lemma rad_sym : forall u v, rad u v = rad v u.
Proof. intros. unfold rad. f_equal. ring. Qed.
Lemma rad_opp : forall u v, rad (- u) v = rad u v.
Proof. intros. unfold rad. f_equal. ring. Qed.
Lemma rad_sq : forall u v, rad u v * rad u v = u * u + v * v.
Proof. intros. unfold rad. apply sqrt_sqrt. nra. Qed.
Lemma rad_ge0 : forall u v, 0 <= rad u v.
Proof. intros. apply sqrt_pos. Qed.
Lemma rad_gt : forall u v, v <> 0 -> Rabs u < rad u v.
Proof.
  intros u v Hv. pose proof (rad_sq u v) as H. pose proof (rad_ge0 u v).
  assert (0 < v * v) by nra. destruct (Rle_lt_dec (rad u v) (Rabs u)) as [L|L]; [|exact L].
  exfalso. pose proof (Rabs_pos u).
  assert (rad u v * rad u v <= Rabs u * Rabs u) by nra.
  assert (Rabs u * Rabs u = u * u) by (rewrite <- Rabs_mult; apply Rabs_pos_eq; nra). lra.
Qed.
Lemma add_rad_pos : forall u v, v <> 0 -> 0 < u + rad u v.
Proof.
  intros u v Hv. pose proof (rad_gt u v Hv). pose proof (Rle_abs (- u)). rewrite Rabs_Ropp in H0. lra.
Qed.
Lemma add_rad_pos' : forall u v, 0 < u -> 0 < u + rad u v.
Proof. intros u v Hu. pose proof (rad_ge0 u v). lra. Qed.
Lemma rad_pos : forall u v, (u <> 0 \/ v <> 0) -> 0 < rad u v.
Proof. intros u v H. apply sqrt_lt_R0. destruct H; nra. Qed.

(** The code's expression as a difference of antiderivatives at the corners
    of the pixel (no corner on a coordinate axis). *)
Lemma pixel_prim : forall young a b x y,
  x + a <> 0 -> x - a <> 0 -> y + b <> 0 -> y - b <> 0 ->
  pixel young a b x y = 1 / (PI * young) *
    (prim (x + a) (y + b) - prim (x + a) (y - b) - prim (x - a) (y + b) + prim (x - a) (y - b)).
Proof.
  intros young a b x y H1 H2 H3 H4. unfold pixel. f_equal.
  set (u1 := x + a) in *. set (u0 := x - a) in *. set (v1 := y + b) in *. set (v0 := y - b) in *.
  fold (rad v1 u1) (rad v0 u1) (rad v1 u0) (rad v0 u0).
  rewrite !ln_div; try (apply add_rad_pos; assumption); try (rewrite rad_sym; apply add_rad_pos; assumption).
  unfold prim. rewrite (rad_sym v1 u1), (rad_sym v0 u1), (rad_sym v1 u0), (rad_sym v0 u0). ring.
Qed.

Lemma pixel_swap : forall young a b x y, pixel young b a y x = pixel young a b x y.
Proof.
  intros. unfold pixel. f_equal.
  rewrite !(Rplus_comm ((x + a) * (x + a))), !(Rplus_comm ((x - a) * (x - a))). ring.
Qed.

Lemma prim_opp_diff : forall u v0 v1, u <> 0 -> v0 <> 0 -> v1 <> 0 ->
  prim (- u) v1 - prim (- u) v0 = - (prim u v1 - prim u v0)
     + 2 * (v1 * ln (Rabs v1) - v0 * ln (Rabs v0)).
Proof.
  intros u v0 v1 Hu H0 H1. unfold prim. rewrite !rad_opp.
  assert (A : forall v, v <> 0 -> ln (- u + rad u v) = 2 * ln (Rabs v) - ln (u + rad u v)).
  { intros v Hv. pose proof (add_rad_pos u v Hv) as P.
    assert (V : 0 < Rabs v) by (apply Rabs_pos_lt; exact Hv).
    replace (- u + rad u v) with (Rabs v * Rabs v / (u + rad u v)).
    - rewrite ln_div by (try assumption; apply Rmult_lt_0_compat; assumption).
      rewrite ln_mult by assumption. ring.
    - assert (E : Rabs v * Rabs v = v * v) by (rewrite <- Rabs_mult; apply Rabs_pos_eq; nra).
      rewrite E. pose proof (rad_sq u v) as S.
      replace (v * v) with ((- u + rad u v) * (u + rad u v)) by nra.
      field. lra. }
  rewrite !A by assumption. ring.
Qed.

Lemma pixel_even_x : forall young a b x y,
  x + a <> 0 -> x - a <> 0 -> y + b <> 0 -> y - b <> 0 ->
  pixel young a b (- x) y = pixel young a b x y.
Proof.
  intros young a b x y H1 H2 H3 H4.
  rewrite (pixel_prim young a b x y), (pixel_prim young a b (- x) y); try assumption; try lra.
  f_equal.
  replace (- x + a) with (- (x - a)) by ring. replace (- x - a) with (- (x + a)) by ring.
  pose proof (prim_opp_diff (x - a) (y - b) (y + b) H2 H4 H3).
  pose proof (prim_opp_diff (x + a) (y - b) (y + b) H1 H4 H3). lra.
Qed.

Lemma pixel_even_y : forall young a b x y,
  x + a <> 0 -> x - a <> 0 -> y + b <> 0 -> y - b <> 0 ->
  pixel young a b x (- y) = pixel young a b x y.
Proof.
  intros. rewrite <- !(pixel_swap young a b). apply pixel_even_x; assumption.
Qed.

(** ** Derivatives *)

Lemma id_deriv : forall x : R, is_derive (fun u : R => u) x 1.
Proof. intros. exact (is_derive_id x). Qed.
Lemma const_deriv : forall c x : R, is_derive (fun _ : R => c) x 0.
Proof. intros. exact (is_derive_const c x). Qed.

Lemma rad_deriv_u : forall u v, (u <> 0 \/ v <> 0) ->
  is_derive (fun u => rad u v) u (u / rad u v).
Proof.
  intros u v H. unfold rad. pose proof (rad_pos u v H) as P. unfold rad in P.
  assert (0 < u * u + v * v) by (destruct H; nra).
  auto_derive; [assumption|]. field. lra.
Qed.

Lemma rad_deriv_v : forall u v, (u <> 0 \/ v <> 0) ->
  is_derive (fun v => rad u v) v (v / rad u v).
Proof.
  intros u v H. apply (is_derive_ext (fun v => rad v u)); [intros; apply rad_sym|].
  rewrite (rad_sym u v). apply rad_deriv_u. tauto.
Qed.

Lemma ln_rad_deriv : forall u v, 0 < u + rad u v -> (u <> 0 \/ v <> 0) ->
  is_derive (fun u => ln (u + rad u v)) u (/ rad u v).
Proof.
  intros u v P H. pose proof (rad_pos u v H) as R0.
  replace (/ rad u v) with ((1 + u / rad u v) * / (u + rad u v)) by (field; lra).
  apply (is_derive_comp ln (fun u => u + rad u v)).
  - apply is_derive_ln. exact P.
  - apply (is_derive_plus (fun u => u) (fun u => rad u v)); [apply id_deriv|].
    apply rad_deriv_u. exact H.
Qed.

Lemma prim_deriv_v : forall u v, 0 < u + rad u v -> 0 < v + rad u v -> (u <> 0 \/ v <> 0) ->
  is_derive (fun v => prim u v) v (ln (u + rad u v) + 1).
Proof.
  intros u v Pu Pv H. pose proof (rad_pos u v H) as R0. unfold prim.
  assert (D1 : is_derive (fun v => u * ln (v + rad u v)) v (u * / rad u v)).
  { apply (is_derive_scal (fun v => ln (v + rad u v))).
    apply (is_derive_ext (fun v => ln (v + rad v u))); [intros; rewrite rad_sym; reflexivity|].
    rewrite (rad_sym u v). apply ln_rad_deriv; [rewrite rad_sym; exact Pv|tauto]. }
  assert (D2 : is_derive (fun v => v * ln (u + rad u v)) v
                 (1 * ln (u + rad u v) + v * (v / rad u v * / (u + rad u v)))).
  { apply (is_derive_mult (fun v => v) (fun v => ln (u + rad u v))).
    - apply id_deriv.
    - apply (is_derive_comp ln (fun v => u + rad u v)).
      + apply is_derive_ln. exact Pu.
      + replace (v / rad u v) with (0 + v / rad u v) by ring.
        apply (is_derive_plus (fun _ => u) (fun v => rad u v)); [apply const_deriv|].
        apply rad_deriv_v. exact H.
    - intros. apply Rmult_comm. }
  replace (ln (u + rad u v) + 1) with
    (u * / rad u v + (1 * ln (u + rad u v) + v * (v / rad u v * / (u + rad u v)))).
  - apply (is_derive_plus (fun v => u * ln (v + rad u v)) (fun v => v * ln (u + rad u v))); assumption.
  - pose proof (rad_sq u v) as S.
    assert (E : u * / rad u v + v * (v / rad u v * / (u + rad u v)) = 1).
    { replace (v * (v / rad u v * / (u + rad u v))) with ((v * v) / (rad u v * (u + rad u v)))
        by (field; lra).
      replace (v * v) with (rad u v * rad u v - u * u) by lra. field. lra. }
    lra.
Qed.

Lemma add_rad_mono : forall u0 u1 v, u0 < u1 -> (v <> 0 \/ 0 < u0) ->
  0 < u0 + rad u0 v /\ u0 + rad u0 v < u1 + rad u1 v.
Proof.
  intros u0 u1 v H H0.
  assert (P : 0 < u0 + rad u0 v).
  { destruct H0; [apply add_rad_pos|apply add_rad_pos']; assumption. }
  split; [exact P|].
  pose proof (rad_sq u0 v) as S0. pose proof (rad_sq u1 v) as S1.
  pose proof (rad_ge0 u1 v) as G1. pose proof (rad_ge0 u0 v) as G0.
  destruct (Rlt_le_dec (u0 + rad u0 v) (u1 + rad u1 v)) as [L|L]; [exact L|exfalso].
  (* (r0 - r1)(r0 + r1) = (u0-u1)(u0+u1), r0 - r1 >= u1 - u0 > 0 *)
  assert (D : rad u0 v - rad u1 v >= u1 - u0) by lra.
  assert (F : (rad u0 v - rad u1 v) * (rad u0 v + rad u1 v) = (u0 - u1) * (u0 + u1)) by nra.
  assert (0 < u1 + rad u1 v).
  { destruct H0; [apply add_rad_pos; assumption|apply add_rad_pos'; lra]. }
  nra.
Qed.

(** ** Positivity off the diagonal and at the origin *)

Lemma prim_diff_pos : forall u0 u1 v0 v1, u0 < u1 -> v0 < v1 -> (0 < v0 \/ (0 < u0)) ->
  (v0 <> 0) -> (v1 <> 0) ->
  0 < prim u1 v1 - prim u1 v0 - prim u0 v1 + prim u0 v0.
Proof.
  intros u0 u1 v0 v1 Hu Hv H Hv0 Hv1.
  assert (C : forall v, v0 <= v <= v1 -> (v <> 0 \/ 0 < u0)).
  { intros v Hvv. destruct H; [left; lra|right; assumption]. }
  destruct (MVT_gen (fun v => prim u1 v - prim u0 v) v0 v1
     (fun v => (ln (u1 + rad u1 v) + 1) - (ln (u0 + rad u0 v) + 1))) as [c [Hc E]].
  - (* no singularity: either v > 0, or both u > 0; v + rad may vanish only at u = 0 *)
    intros v Hvv. rewrite Rmin_left, Rmax_right in Hvv by lra.
    assert (Cv : v <> 0 \/ 0 < u0) by (apply C; lra).
    destruct (add_rad_mono u0 u1 v Hu Cv) as [P0 P1].
    assert (Q : forall u, (u = u0 \/ u = u1) -> 0 < v + rad u v).
    { intros u Hu'. rewrite rad_sym. destruct H as [H|H].
      - apply add_rad_pos'. lra.
      - apply add_rad_pos. destruct Hu'; lra. }
    apply (is_derive_minus (fun v => prim u1 v) (fun v => prim u0 v)).
    + apply prim_deriv_v; [lra|apply Q; tauto|]. destruct Cv; [tauto|left; lra].
    + apply prim_deriv_v; [lra|apply Q; tauto|]. destruct Cv; [tauto|left; lra].
  - intros v Hvv. rewrite Rmin_left, Rmax_right in Hvv by lra.
    assert (Cv : v <> 0 \/ 0 < u0) by (apply C; lra).
    destruct (add_rad_mono u0 u1 v Hu Cv) as [P0 P1].
    assert (Q : forall u, (u = u0 \/ u = u1) -> 0 < v + rad u v).
    { intros u Hu'. rewrite rad_sym. destruct H as [H|H].
      - apply add_rad_pos'. lra.
      - apply add_rad_pos. destruct Hu'; lra. }
    apply derivable_continuous_pt. apply ex_derive_Reals_0.
    eexists. apply (is_derive_minus (fun v => prim u1 v) (fun v => prim u0 v)).
    + apply prim_deriv_v; [lra|apply Q; tauto|]. destruct Cv; [tauto|left; lra].
    + apply prim_deriv_v; [lra|apply Q; tauto|]. destruct Cv; [tauto|left; lra].
  - rewrite Rmin_left, Rmax_right in Hc by lra.
    destruct (add_rad_mono u0 u1 c Hu (C c Hc)) as [P0 P1].
    pose proof (ln_increasing _ _ P0 P1).
    assert (0 < (ln (u1 + rad u1 c) + 1 - (ln (u0 + rad u0 c) + 1)) * (v1 - v0))
      by (apply Rmult_lt_0_compat; lra).
    lra.
Qed.

Lemma pixel_pos_quadrant : forall young a b x y, 0 < young -> 0 < a -> 0 < b ->
  ((a < x) \/ (b < y)) -> x + a <> 0 -> x - a <> 0 -> y + b <> 0 -> y - b <> 0 ->
  0 < pixel young a b x y.
Proof.
  intros young a b x y Hy Ha Hb H H1 H2 H3 H4.
  rewrite pixel_prim by assumption. pose proof PI_RGT_0.
  apply Rmult_lt_0_compat.
  { apply Rdiv_lt_0_compat; [lra|]. apply Rmult_lt_0_compat; assumption. }
  apply prim_diff_pos; try lra.
Qed.

Lemma pixel_pos_centre : forall young a b, 0 < young -> 0 < a -> 0 < b ->
  0 < pixel young a b 0 0.
Proof.
  intros young a b Hy Ha Hb. unfold pixel. pose proof PI_RGT_0.
  apply Rmult_lt_0_compat.
  { apply Rdiv_lt_0_compat; [lra|]. apply Rmult_lt_0_compat; assumption. }
  rewrite !Rplus_0_l, !Rminus_0_l.
  replace (- b * - b) with (b * b) by ring. replace (- a * - a) with (a * a) by ring.
  fold (rad b a).
  pose proof (rad_gt a b ltac:(lra)) as R1. pose proof (rad_gt b a ltac:(lra)) as R2.
  rewrite (rad_sym a b), (Rabs_pos_eq a) in R1 by lra. rewrite (Rabs_pos_eq b) in R2 by lra.
  set (r := rad b a) in *.
  rewrite !ln_div by lra.
  assert (ln (- b + r) < ln (b + r)) by (apply ln_increasing; lra).
  assert (ln (- a + r) < ln (a + r)) by (apply ln_increasing; lra).
  nra.
Qed.

(** Integer multiples of the spacing: corners are never on the axes. *)
Lemma half_offset : forall (k : Z) d, d <> 0 ->
  IZR k * d + d * 0.5 <> 0 /\ IZR k * d - d * 0.5 <> 0.
Proof.
  intros k d Hd. split; intro E.
  - assert (H : d * (IZR k + 0.5) = 0) by lra. apply Rmult_integral in H. destruct H; [lra|].
    assert (IZR (2 * k + 1) = 0) by (rewrite plus_IZR, mult_IZR; lra).
    apply eq_IZR_R0 in H0. lia.
  - assert (H : d * (IZR k - 0.5) = 0) by lra. apply Rmult_integral in H. destruct H; [lra|].
    assert (IZR (2 * k - 1) = 0) by (rewrite minus_IZR, mult_IZR; lra).
    apply eq_IZR_R0 in H0. lia.
Qed.

Lemma pixel_grid_even : forall young dx dy (i j : Z), dx <> 0 -> dy <> 0 ->
  pixel young (dx * 0.5) (dy * 0.5) (IZR (- i) * dx) (IZR j * dy)
  = pixel young (dx * 0.5) (dy * 0.5) (IZR i * dx) (IZR j * dy)
  /\ pixel young (dx * 0.5) (dy * 0.5) (IZR i * dx) (IZR (- j) * dy)
  = pixel young (dx * 0.5) (dy * 0.5) (IZR i * dx) (IZR j * dy).
Proof.
  intros young dx dy i j Hx Hy.
  destruct (half_offset i dx Hx), (half_offset j dy Hy).
  rewrite !opp_IZR, !Ropp_mult_distr_l_reverse. split.
  - apply pixel_even_x; assumption.
  - apply pixel_even_y; assumption.
Qed.

Lemma pixel_grid_pos : forall young dx dy (i j : Z), 0 < young -> 0 < dx -> 0 < dy ->
  0 < pixel young (dx * 0.5) (dy * 0.5) (IZR i * dx) (IZR j * dy).
Proof.
  intros young dx dy i j Hyo Hx Hy.
  (* reduce to i, j >= 0 *)
  assert (W : forall i j : Z, (0 <= i)%Z -> (0 <= j)%Z ->
     0 < pixel young (dx * 0.5) (dy * 0.5) (IZR i * dx) (IZR j * dy)).
  { clear i j. intros i j Hi Hj.
    destruct (half_offset i dx ltac:(lra)), (half_offset j dy ltac:(lra)).
    destruct (Z.eq_dec i 0) as [I|I]; [destruct (Z.eq_dec j 0) as [J|J]|].
    - subst. rewrite !Rmult_0_l. apply pixel_pos_centre; lra.
    - apply pixel_pos_quadrant; try lra. right.
      assert (1 <= IZR j) by (apply (IZR_le 1); lia). nra.
    - apply pixel_pos_quadrant; try lra. left.
      assert (1 <= IZR i) by (apply (IZR_le 1); lia). nra. }
  destruct (Z_le_gt_dec 0 i) as [I|I]; destruct (Z_le_gt_dec 0 j) as [J|J].
  - apply W; assumption.
  - rewrite <- (proj2 (pixel_grid_even young dx dy i j ltac:(lra) ltac:(lra))). apply W; lia.
  - rewrite <- (proj1 (pixel_grid_even young dx dy i j ltac:(lra) ltac:(lra))). apply W; lia.
  - rewrite <- (proj1 (pixel_grid_even young dx dy i j ltac:(lra) ltac:(lra))).
    rewrite <- (proj2 (pixel_grid_even young dx dy (- i) j ltac:(lra) ltac:(lra))). apply W; lia.
Qed.

(** ** The coefficient is the surface integral of 1/r *)

Lemma inner_integral : forall u0 u1 v, u0 < u1 -> (v <> 0 \/ 0 < u0) ->
  is_RInt (fun u => / rad u v) u0 u1 (ln (u1 + rad u1 v) - ln (u0 + rad u0 v)).
Proof.
  intros u0 u1 v Hu H.
  apply (is_RInt_derive (fun u => ln (u + rad u v)) (fun u => / rad u v)).
  - intros u Hx. rewrite Rmin_left, Rmax_right in Hx by lra.
    assert (P : 0 < u + rad u v).
    { destruct H; [apply add_rad_pos; assumption|apply add_rad_pos'; lra]. }
    apply ln_rad_deriv; [exact P|]. destruct H; [tauto|left; lra].
  - intros u Hx. rewrite Rmin_left, Rmax_right in Hx by lra.
    assert (N : u <> 0 \/ v <> 0) by (destruct H; [tauto|left; lra]).
    pose proof (rad_pos u v N).
    apply (continuous_comp (fun u => rad u v) Rinv).
    + apply (ex_derive_continuous (fun u => rad u v)). eexists. apply rad_deriv_u. exact N.
    + apply continuous_Rinv. lra.
Qed.

Lemma outer_integral : forall u0 u1 v0 v1, u0 < u1 -> v0 < v1 -> (0 < v0 \/ 0 < u0) ->
  is_RInt (fun v => RInt (fun u => / rad u v) u0 u1) v0 v1
    (prim u1 v1 - prim u1 v0 - prim u0 v1 + prim u0 v0).
Proof.
  intros u0 u1 v0 v1 Hu Hv H.
  assert (C : forall v, v0 <= v <= v1 -> (v <> 0 \/ 0 < u0)).
  { intros v Hvv. destruct H; [left; lra|right; assumption]. }
  apply (is_RInt_ext (fun v => ln (u1 + rad u1 v) - ln (u0 + rad u0 v))).
  { intros v Hx. rewrite Rmin_left, Rmax_right in Hx by lra.
    symmetry. apply is_RInt_unique. apply inner_integral; [exact Hu|]. apply C. lra. }
  replace (prim u1 v1 - prim u1 v0 - prim u0 v1 + prim u0 v0)
    with ((prim u1 v1 - prim u0 v1) - (prim u1 v0 - prim u0 v0)) by ring.
  assert (S : forall v, v0 <= v <= v1 -> forall u, (u = u0 \/ u = u1) ->
     0 < u + rad u v /\ 0 < v + rad u v /\ (u <> 0 \/ v <> 0)).
  { intros v Hvv u Hu'. assert (Cv := C v Hvv). repeat split.
    - destruct Cv; [apply add_rad_pos; assumption|apply add_rad_pos'; destruct Hu'; lra].
    - rewrite rad_sym. destruct H; [apply add_rad_pos'; lra|apply add_rad_pos; destruct Hu'; lra].
    - destruct Cv; [tauto|left; destruct Hu'; lra]. }
  apply (is_RInt_derive (fun v => prim u1 v - prim u0 v)
           (fun v => ln (u1 + rad u1 v) - ln (u0 + rad u0 v))).
  - intros v Hx. rewrite Rmin_left, Rmax_right in Hx by lra.
    destruct (S v Hx u1 (or_intror eq_refl)) as [A1 [B1 C1]].
    destruct (S v Hx u0 (or_introl eq_refl)) as [A0 [B0 C0]].
    replace (ln (u1 + rad u1 v) - ln (u0 + rad u0 v))
      with ((ln (u1 + rad u1 v) + 1) - (ln (u0 + rad u0 v) + 1)) by ring.
    apply (is_derive_minus (fun v => prim u1 v) (fun v => prim u0 v)); apply prim_deriv_v; assumption.
  - intros v Hx. rewrite Rmin_left, Rmax_right in Hx by lra.
    destruct (S v Hx u1 (or_intror eq_refl)) as [A1 [B1 C1]].
    destruct (S v Hx u0 (or_introl eq_refl)) as [A0 [B0 C0]].
    apply (continuous_minus (fun v => ln (u1 + rad u1 v)) (fun v => ln (u0 + rad u0 v))).
    + apply (ex_derive_continuous (fun v => ln (u1 + rad u1 v))).
      exists (v / rad u1 v * / (u1 + rad u1 v)).
      apply (is_derive_comp ln (fun v => u1 + rad u1 v)); [apply is_derive_ln; assumption|].
      replace (v / rad u1 v) with (0 + v / rad u1 v) by ring.
      apply (is_derive_plus (fun _ => u1) (fun v => rad u1 v)); [apply const_deriv|].
      apply rad_deriv_v. assumption.
    + apply (ex_derive_continuous (fun v => ln (u0 + rad u0 v))).
      exists (v / rad u0 v * / (u0 + rad u0 v)).
      apply (is_derive_comp ln (fun v => u0 + rad u0 v)); [apply is_derive_ln; assumption|].
      replace (v / rad u0 v) with (0 + v / rad u0 v) by ring.
      apply (is_derive_plus (fun _ => u0) (fun v => rad u0 v)); [apply const_deriv|].
      apply rad_deriv_v. assumption.
Qed.

Lemma pixel_integral : forall young a b x y, 0 < a -> 0 < b ->
  (a < x \/ b < y) -> x + a <> 0 -> x - a <> 0 -> y + b <> 0 -> y - b <> 0 ->
  is_RInt (fun v => RInt (fun u => 1 / (PI * young) * / sqrt (u * u + v * v)) (x - a) (x + a))
          (y - b) (y + b) (pixel young a b x y).
Proof.
  intros young a b x y Ha Hb H H1 H2 H3 H4.
  rewrite pixel_prim by assumption.
  apply (is_RInt_ext (fun v => scal (1 / (PI * young)) (RInt (fun u => / rad u v) (x - a) (x + a)))).
  { intros v Hv. rewrite Rmin_left, Rmax_right in Hv by lra.
    symmetry. apply is_RInt_unique.
    apply (is_RInt_scal (fun u => / rad u v)).
    assert (E : is_RInt (fun u => / rad u v) (x - a) (x + a)
       (ln ((x + a) + rad (x + a) v) - ln ((x - a) + rad (x - a) v))).
    { apply inner_integral; [lra|]. destruct H; [right; lra|left; lra]. }
    rewrite (is_RInt_unique _ _ _ _ E). exact E. }
  apply (is_RInt_scal (fun v => RInt (fun u => / rad u v) (x - a) (x + a))).
  apply outer_integral; lra.
Qed.
