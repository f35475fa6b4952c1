(** * Proofs about the Hertz displacements at the surface *)

From Coq Require Import Reals Lra Lia Psatz.
From Coquelicot Require Import Coquelicot.
From Verif Require Import Hertz_Model Calc Hertz_Proofs.
Local Open Scope R_scope.

Definition uz_out (r : R) : R := (- (2 - r ^ 2) * asin (1 / r) - r * sqrt (1 - (1 / r) ^ 2)) / 2.

Lemma uz_in : forall r, r < 1 -> surface_displacement1 r = - PI * (2 - r ^ 2) / 4.
Proof. intros r H. unfold surface_displacement1. destruct (Rlt_dec r 1); [reflexivity|lra]. Qed.
Lemma uz_outside : forall r, 1 <= r -> surface_displacement1 r = uz_out r.
Proof. intros r H. unfold surface_displacement1. destruct (Rlt_dec r 1); [lra|reflexivity]. Qed.
Lemma uz_out_1 : uz_out 1 = - PI / 4.
Proof.
  unfold uz_out. replace (1 / 1) with 1 by field. rewrite asin_1.
  replace (1 - 1 ^ 2) with 0 by ring. rewrite sqrt_0. field.
Qed.

Lemma asin_continuous : forall x, -1 < x -> x <= 1 -> continuous asin x.
Proof.
  intros x H0 [H1|H1].
  - apply (ex_derive_continuous (K := R_AbsRing) (V := R_NormedModule) asin).
    eexists. apply is_derive_asin. lra.
  - subst x. apply continuity_pt_filterlim.
    (* asin is increasing with a continuous inverse *)
    intros e He. set (d := Rmin e (PI / 2)). pose proof PI_RGT_0 as HP.
    assert (Hd : 0 < d) by (unfold d; apply Rmin_pos; lra).
    assert (Hd2 : d <= PI / 2) by apply Rmin_r.
    exists (1 - sin (PI / 2 - d)).
    assert (SL : sin (PI / 2 - d) < 1).
    { rewrite <- sin_PI2. apply sin_increasing_1; lra. }
    assert (SG : 0 <= sin (PI / 2 - d)) by (apply sin_ge_0; lra).
    split; [lra|]. intros y [_ Hy]. simpl in *. unfold R_dist in *. rewrite asin_1.
    destruct (Rlt_dec 1 y) as [Q|Q].
    + unfold asin. destruct (Rle_dec y (-1)); [lra|]. destruct (Rle_dec 1 y); [|lra].
      replace (PI / 2 - PI / 2) with 0 by ring. rewrite Rabs_R0. exact He.
    + assert (Hy1 : y <= 1) by lra. assert (HA : sin (PI / 2 - d) < y).
      { destruct (Req_dec y 1) as [->|N]; [exact SL|]. rewrite Rabs_left in Hy by lra. lra. }
      pose proof (asin_bound y) as B.
      rewrite Rabs_left1 by lra.
      assert (L : PI / 2 - d < asin y).
      { destruct (Rle_lt_dec (asin y) (PI / 2 - d)) as [L|L]; [|exact L]. exfalso.
        assert (S1 : sin (asin y) <= sin (PI / 2 - d)).
        { destruct L as [L|L]; [left; apply sin_increasing_1; lra|rewrite L; lra]. }
        rewrite sin_asin in S1 by lra. lra. }
      assert (d <= e) by apply Rmin_l. lra.
Qed.

Lemma uz_out_continuous : forall r, 1 <= r -> continuous uz_out r.
Proof.
  intros r H. unfold uz_out.
  assert (CI : continuous (fun t => 1 / t) r).
  { apply (ex_derive_continuous (fun t => 1 / t)). auto_derive. lra. }
  assert (0 < 1 / r <= 1).
  { split; [apply Rdiv_lt_0_compat; lra|]. apply Rmult_le_reg_r with r; [lra|]. unfold Rdiv.
    rewrite Rmult_assoc, Rinv_l by lra. lra. }
  apply (continuous_mult (K := R_AbsRing)); [|apply continuous_const].
  apply (continuous_minus (V := R_NormedModule)).
  - apply (continuous_mult (K := R_AbsRing)).
    + apply (ex_derive_continuous (fun t => - (2 - t ^ 2))). auto_derive. exact I.
    + apply (continuous_comp (fun t => 1 / t) asin); [exact CI|]. apply asin_continuous; lra.
  - apply (continuous_mult (K := R_AbsRing)); [apply continuous_id|].
    apply continuous_sqrt_comp.
    apply (ex_derive_continuous (fun t => 1 - (1 / t) ^ 2)). auto_derive. lra.
Qed.

(** Slope outside of the contact. *)
Definition uz_slope (r : R) : R := r * asin (1 / r) - sqrt (1 - (1 / r) ^ 2).
Lemma inv_range : forall r, 1 < r -> 0 < 1 / r < 1.
Proof.
  intros r H. split; [apply Rdiv_lt_0_compat; lra|]. apply Rmult_lt_reg_r with r; [lra|].
  unfold Rdiv. rewrite Rmult_assoc, Rinv_l by lra. lra.
Qed.
Lemma uz_out_derive : forall r, 1 < r -> is_derive uz_out r (uz_slope r).
Proof.
  intros r H. pose proof (inv_range r H) as B. unfold uz_out.
  assert (P : 0 < 1 - (1 / r) ^ 2) by nra.
  pose proof (is_derive_asin (1 / r) ltac:(lra)) as DA.
  set (w := sqrt (1 - (1 / r) ^ 2)). assert (Hw : 0 < w) by (apply sqrt_lt_R0; exact P).
  assert (Q : w * w = 1 - (1 / r) ^ 2) by (apply sqrt_sqrt; lra).
  assert (D1 : is_derive (fun t => asin (1 / t)) r (- (1 / r ^ 2) * / w)).
  { evar_last.
    - apply (is_derive_comp asin (fun t => 1 / t)); [exact DA|].
      apply (is_derive_ext (fun t => / t)); [intros t; inR; unfold Rdiv; ring|].
      apply is_derive_inv; [apply (is_derive_id (K := R_AbsRing))|lra].
    - change (- (1) / r ^ 2 * / w = - (1 / r ^ 2) * / w). field. split; lra. }
  assert (D2 : is_derive (fun t => sqrt (1 - (1 / t) ^ 2)) r (1 / (r ^ 3 * w))).
  { auto_derive.
    - split; [lra|]. split; [|exact I].
      replace (1 + - (1 * / r * (1 * / r * 1))) with (1 - (1 / r) ^ 2) by (unfold Rdiv; ring). exact P.
    - replace (1 + - (1 * / r * (1 * / r * 1))) with (1 - (1 / r) ^ 2) by (unfold Rdiv; ring).
      fold w. field. split; lra. }
  unfold uz_slope. fold w.
  evar_last.
  - apply (is_derive_ext (fun t => (/ 2) * (plus (- (2 - t ^ 2) * asin (1 / t)) (opp (t * sqrt (1 - (1 / t) ^ 2)))))).
    { intros t. unfold plus, opp; simpl. inR. field. }
    apply is_derive_scal. apply @is_derive_plus.
    + apply (is_derive_mult (fun t => - (2 - t ^ 2)) (fun t => asin (1 / t)) r (2 * r) (- (1 / r ^ 2) * / w)); [|exact D1|].
      * auto_derive; [exact I|]. ring.
      * intros n m. apply Rmult_comm.
    + apply @is_derive_opp.
      apply (is_derive_mult (fun t => t) (fun t => sqrt (1 - (1 / t) ^ 2)) r 1 (1 / (r ^ 3 * w))); [|exact D2|].
      * apply (is_derive_id (K := R_AbsRing)).
      * intros n m. apply Rmult_comm.
  - set (s := asin (1 / r)).
    assert (E : / r ^ 2 = 1 - w * w) by (rewrite Q; field; lra).
    change (/ 2 * (2 * r * s + - (2 - r ^ 2) * (- (1 / r ^ 2) * / w) + - (1 * w + r * (1 / (r ^ 3 * w)))) = r * s - w).
    replace (/ 2 * (2 * r * s + - (2 - r ^ 2) * (- (1 / r ^ 2) * / w) + - (1 * w + r * (1 / (r ^ 3 * w)))))
      with (r * s + / 2 * (/ r ^ 2 / w - 1 / w - w)) by (field; split; lra).
    rewrite E. field. lra.
Qed.

(** Inside the contact the surface follows the sphere; outside it lies below it. *)
Lemma uz_profile_out : forall r, 1 < r -> 0 < r ^ 2 / 4 * PI - PI / 2 - surface_displacement1 r.
Proof.
  intros r H. rewrite uz_outside by lra.
  set (g := fun t => t ^ 2 / 4 * PI - PI / 2 - uz_out t).
  assert (G1 : g 1 = 0) by (unfold g; rewrite uz_out_1; field).
  change (0 < g r). rewrite <- G1.
  apply (derive_pos_lt g (fun t => t / 2 * PI - uz_slope t)); [exact H|..].
  - intros x Hx. unfold g. apply (continuous_minus (V := R_NormedModule)).
    + apply (ex_derive_continuous (fun t => t ^ 2 / 4 * PI - PI / 2)). auto_derive. exact I.
    + apply uz_out_continuous. lra.
  - intros x Hx. unfold g.
    apply (is_derive_minus (V := R_NormedModule) (fun t => t ^ 2 / 4 * PI - PI / 2) uz_out x).
    + auto_derive; [exact I|]. field.
    + apply uz_out_derive. lra.
  - intros x Hx. unfold uz_slope. pose proof (inv_range x ltac:(lra)) as B.
    pose proof (asin_bound_lt (1 / x) ltac:(lra)) as AB.
    assert (0 < sqrt (1 - (1 / x) ^ 2)) by (apply sqrt_lt_R0; nra). nra.
Qed.
Lemma uz_continuous : forall r, continuous surface_displacement1 r.
Proof.
  intros r. assert (CI : forall x, continuous (fun t => - PI * (2 - t ^ 2) / 4) x).
  { intros x. apply (ex_derive_continuous (fun t => - PI * (2 - t ^ 2) / 4)). auto_derive. exact I. }
  destruct (Rlt_dec r 1) as [L|L].
  { apply (continuous_ext_loc _ (fun t => - PI * (2 - t ^ 2) / 4)); [|apply CI].
    assert (D : 0 < 1 - r) by lra. exists (mkposreal _ D). intros t Ht.
    unfold ball in Ht; simpl in Ht. unfold AbsRing_ball, abs, minus, plus, opp in Ht; simpl in Ht.
    apply Rabs_def2 in Ht. symmetry. apply uz_in. lra. }
  destruct (Req_dec r 1) as [->|N].
  2: { apply (continuous_ext_loc _ uz_out); [|apply uz_out_continuous; lra].
    assert (D : 0 < r - 1) by lra. exists (mkposreal _ D). intros t Ht.
    unfold ball in Ht; simpl in Ht. unfold AbsRing_ball, abs, minus, plus, opp in Ht; simpl in Ht.
    apply Rabs_def2 in Ht. symmetry. apply uz_outside. lra. }
  pose proof (CI 1) as C1. pose proof (uz_out_continuous 1 ltac:(lra)) as C2.
  assert (V : surface_displacement1 1 = - PI / 4) by (rewrite uz_outside by lra; apply uz_out_1).
  intros P [e HP]. rewrite V in HP.
  specialize (C1 (ball (- PI * (2 - 1 ^ 2) / 4) e) (locally_ball _ _)).
  specialize (C2 (ball (uz_out 1) e) (locally_ball _ _)).
  unfold filtermap in C1, C2. unfold filtermap.
  generalize (filter_and _ _ C1 C2). apply filter_imp. intros t [A B]. apply HP.
  destruct (Rlt_dec t 1).
  - rewrite uz_in by assumption. replace (- PI * (2 - 1 ^ 2) / 4) with (- PI / 4) in A by field. exact A.
  - rewrite uz_outside by lra. rewrite uz_out_1 in B. exact B.
Qed.

(** ** In physical units *)
Section Gap.
  Variables (N Rs Es : R).
  Hypotheses (HN : 0 < N) (HR : 0 < Rs) (HE : 0 < Es).
  Let a := fst (radius_and_pressure N Rs Es).
  Let p0 := snd (radius_and_pressure N Rs Es).
  Let d := penetration N Rs Es.

  (** Height of the sphere above the deformed surface at distance [x]. *)
  Definition hertz_gap (x : R) : R :=
    x ^ 2 / (2 * Rs) - d - p0 / Es * a * surface_displacement1 (x / a).

  Lemma hertz_units : p0 / Es * a * PI = 2 * d /\ a ^ 2 = Rs * d /\ 0 < a /\ 0 < d.
  Proof.
    pose proof (radius_gt0 Rs Es HR HE N HN) as Ha. pose proof (radius_sq Rs Es HR HE N ltac:(lra)) as C2.
    pose proof (radius_cube Rs Es HR HE N ltac:(lra)) as C3.
    pose proof (penetration_gt0 Rs Es HR HE N HN) as Hd. pose proof PI_RGT_0.
    fold a in Ha, C2, C3. fold d in C2, Hd. repeat split; try assumption.
    unfold p0. rewrite peak_pressure. fold a.
    assert (EN : N = 4 / 3 * Es * a ^ 3 / Rs) by (rewrite C3; field; lra).
    rewrite EN. replace (2 * d) with (2 * a ^ 2 / Rs) by (rewrite C2; field; lra).
    field. repeat split; lra.
  Qed.
  Lemma hertz_gap_eq : forall x,
    hertz_gap x = p0 / Es * a * ((x / a) ^ 2 / 4 * PI - PI / 2 - surface_displacement1 (x / a)).
  Proof.
    intros x. destruct hertz_units as (U & C2 & Ha & Hd). unfold hertz_gap.
    set (k := p0 / Es * a) in *.
    replace (k * ((x / a) ^ 2 / 4 * PI - PI / 2 - surface_displacement1 (x / a)))
      with ((k * PI) * ((x / a) ^ 2 / 4 - 1 / 2) - k * surface_displacement1 (x / a)) by (field; lra).
    rewrite U. f_equal. replace ((x / a) ^ 2) with (x ^ 2 / a ^ 2) by (field; lra).
    rewrite C2. field. split; lra.
  Qed.
  Lemma hertz_contact : forall x, 0 <= x <= a -> hertz_gap x = 0.
  Proof.
    intros x Hx. destruct hertz_units as (U & C2 & Ha & Hd). rewrite hertz_gap_eq.
    destruct (Req_dec x a) as [->|NE].
    - replace (a / a) with 1 by (field; lra). rewrite uz_outside, uz_out_1 by lra. field.
      lra.
    - rewrite uz_in; [field; lra|]. apply Rmult_lt_reg_r with a; [exact Ha|].
      unfold Rdiv. rewrite Rmult_assoc, Rinv_l by lra. lra.
  Qed.
  Lemma hertz_separation : forall x, a < x -> 0 < hertz_gap x.
  Proof.
    intros x Hx. destruct hertz_units as (U & C2 & Ha & Hd). rewrite hertz_gap_eq.
    apply Rmult_lt_0_compat.
    - pose proof PI_RGT_0. apply Rmult_lt_reg_r with PI; [assumption|]. rewrite U. lra.
    - apply uz_profile_out. apply Rmult_lt_reg_r with a; [exact Ha|].
      unfold Rdiv. rewrite Rmult_assoc, Rinv_l by lra. lra.
  Qed.
End Gap.
