(** * Proofs about the scalar Hertz formulas and the surface fields *)

From Coq Require Import Reals Lra Lia Psatz.
From Coquelicot Require Import Coquelicot.
From Verif Require Import Hertz_Model Calc.
Local Open Scope R_scope.

(** ** Load, penetration, radius, pressure, energy *)

Section Scalars.
  Variables (Rs Es : R).
  Hypotheses (HR : 0 < Rs) (HE : 0 < Es).

  Lemma cube_pen : forall N, 0 <= 9 * N ^ 2 / (16 * Rs * Es ^ 2).
  Proof.
    intros N. apply Rmult_le_pos.
    - apply Rmult_le_pos; [lra|]. apply pow2_ge_0.
    - left. apply Rinv_0_lt_compat. apply Rmult_lt_0_compat; [lra|]. apply pow_lt; exact HE.
  Qed.
  Lemma penetration_ge0 : forall N, 0 <= penetration N Rs Es.
  Proof. intros. apply fpow_ge0. Qed.
  Lemma penetration_gt0 : forall N, 0 < N -> 0 < penetration N Rs Es.
  Proof.
    intros N HN. apply fpow_gt0. apply Rmult_lt_0_compat.
    - apply Rmult_lt_0_compat; [lra|]. apply pow_lt; exact HN.
    - apply Rinv_0_lt_compat. apply Rmult_lt_0_compat; [lra|]. apply pow_lt; exact HE.
  Qed.
  Lemma penetration_cube : forall N, penetration N Rs Es ^ 3 = 9 * N ^ 2 / (16 * Rs * Es ^ 2).
  Proof. intros N. apply fpow_third_cube. apply cube_pen. Qed.

  Lemma load_sq : forall d, 0 <= d -> normal_load d Rs Es ^ 2 = 16 / 9 * Es ^ 2 * (d ^ 3 * Rs).
  Proof.
    intros d Hd. unfold normal_load.
    replace ((4 / 3 * Es * sqrt (d ^ 3 * Rs)) ^ 2)
      with (16 / 9 * Es ^ 2 * (sqrt (d ^ 3 * Rs) * sqrt (d ^ 3 * Rs))) by field.
    rewrite sqrt_sqrt; [reflexivity|]. apply Rmult_le_pos; [apply pow_le; exact Hd|lra].
  Qed.
  Lemma load_ge0 : forall d, 0 <= normal_load d Rs Es.
  Proof. intros d. unfold normal_load. apply Rmult_le_pos; [lra|apply sqrt_pos]. Qed.

  Lemma pen_of_load : forall d, 0 <= d -> penetration (normal_load d Rs Es) Rs Es = d.
  Proof.
    intros d Hd. apply cube_inj; [apply penetration_ge0|exact Hd|].
    rewrite penetration_cube, load_sq by exact Hd. field. split; lra.
  Qed.
  Lemma load_of_pen : forall N, 0 <= N -> normal_load (penetration N Rs Es) Rs Es = N.
  Proof.
    intros N HN. apply sq_inj; [apply load_ge0|exact HN|].
    replace (normal_load (penetration N Rs Es) Rs Es * normal_load (penetration N Rs Es) Rs Es)
      with (normal_load (penetration N Rs Es) Rs Es ^ 2) by ring.
    rewrite load_sq by apply penetration_ge0. rewrite penetration_cube. field. split; lra.
  Qed.

  Lemma radius_arg : forall N, 0 <= N -> 0 <= 3 / 4 * (N / (Es * Rs ^ 2)).
  Proof.
    intros N HN. apply Rmult_le_pos; [lra|]. apply Rmult_le_pos; [exact HN|].
    left. apply Rinv_0_lt_compat. apply Rmult_lt_0_compat; [exact HE|]. apply pow_lt; exact HR.
  Qed.
  Lemma radius_ge0 : forall N, 0 <= fst (radius_and_pressure N Rs Es).
  Proof. intros N. simpl. apply Rmult_le_pos; [lra|apply fpow_ge0]. Qed.
  Lemma radius_gt0 : forall N, 0 < N -> 0 < fst (radius_and_pressure N Rs Es).
  Proof.
    intros N HN. simpl. apply Rmult_lt_0_compat; [lra|]. apply fpow_gt0.
    apply Rmult_lt_0_compat; [lra|]. apply Rmult_lt_0_compat; [exact HN|].
    apply Rinv_0_lt_compat. apply Rmult_lt_0_compat; [exact HE|]. apply (pow_lt Rs 2); exact HR.
  Qed.
  Lemma radius_cube : forall N, 0 <= N ->
    fst (radius_and_pressure N Rs Es) ^ 3 = 3 / 4 * N * Rs / Es.
  Proof.
    intros N HN. change (fst (radius_and_pressure N Rs Es))
      with (Rs * fpow (3 / 4 * (N / (Es * Rs ^ 2))) (1 / 3)).
    rewrite Rpow_mult_distr, fpow_third_cube by (apply radius_arg; exact HN). field. split; lra.
  Qed.
  Lemma radius_sq : forall N, 0 <= N ->
    fst (radius_and_pressure N Rs Es) ^ 2 = Rs * penetration N Rs Es.
  Proof.
    intros N HN. apply cube_inj.
    - apply pow_le. apply radius_ge0.
    - apply Rmult_le_pos; [lra|apply penetration_ge0].
    - replace ((fst (radius_and_pressure N Rs Es) ^ 2) ^ 3)
        with ((fst (radius_and_pressure N Rs Es) ^ 3) ^ 2) by ring.
      rewrite radius_cube by exact HN. rewrite Rpow_mult_distr, penetration_cube. field. split; lra.
  Qed.
  Lemma peak_pressure : forall N,
    snd (radius_and_pressure N Rs Es)
    = 3 * N / (2 * PI * fst (radius_and_pressure N Rs Es) * fst (radius_and_pressure N Rs Es)).
  Proof. reflexivity. Qed.

  Lemma peak_from_penetration : forall N, 0 < N ->
    snd (radius_and_pressure N Rs Es) = max_pressure__penetration (penetration N Rs Es) Rs Es.
  Proof.
    intros N HN. rewrite peak_pressure. unfold max_pressure__penetration.
    pose proof (radius_gt0 N HN) as Ha. pose proof (radius_cube N ltac:(lra)) as C3.
    pose proof (radius_sq N ltac:(lra)) as C2. pose proof PI_RGT_0 as HP.
    set (a := fst (radius_and_pressure N Rs Es)) in *.
    assert (ED : penetration N Rs Es = a ^ 2 / Rs) by (rewrite C2; field; lra).
    rewrite ED.
    assert (EN : N = 4 / 3 * Es * a ^ 3 / Rs) by (rewrite C3; field; lra).
    rewrite (sqrt_eq (a ^ 2 / Rs / Rs) (a / Rs)).
    - rewrite EN. field. repeat split; lra.
    - apply Rmult_le_pos; [lra|]. left. apply Rinv_0_lt_compat; lra.
    - field. lra.
  Qed.

  (** The load at penetration [d] in terms of the square root of [d]. *)
  Lemma load_sqrt : forall d, 0 <= d -> normal_load d Rs Es = 4 / 3 * Es * sqrt Rs * (d * sqrt d).
  Proof.
    intros d Hd. unfold normal_load.
    assert (E : sqrt (d ^ 3 * Rs) = sqrt Rs * (d * sqrt d)).
    { apply sqrt_eq.
      - apply Rmult_le_pos; [apply sqrt_pos|]. apply Rmult_le_pos; [exact Hd|apply sqrt_pos].
      - replace (sqrt Rs * (d * sqrt d) * (sqrt Rs * (d * sqrt d)))
          with ((sqrt Rs * sqrt Rs) * (d * d * (sqrt d * sqrt d))) by ring.
        rewrite !sqrt_sqrt by lra. ring. }
    rewrite E. ring.
  Qed.
  Lemma energy_sqrt : forall d, 0 <= d ->
    elastic_energy d Rs Es = 8 / 15 * Es * sqrt Rs * (d ^ 2 * sqrt d).
  Proof. intros d Hd. unfold elastic_energy. rewrite fpow_5_2 by exact Hd. ring. Qed.

  Lemma energy_load : forall d, 0 <= d -> elastic_energy d Rs Es = 2 / 5 * normal_load d Rs Es * d.
  Proof. intros d Hd. rewrite energy_sqrt, load_sqrt by exact Hd. field. Qed.

  Lemma energy_derive : forall d, 0 < d ->
    is_derive (fun t => elastic_energy t Rs Es) d (normal_load d Rs Es).
  Proof.
    intros d Hd.
    apply (is_derive_ext_loc (fun t => 8 / 15 * Es * sqrt Rs * (t ^ 2 * sqrt t))).
    - exists (mkposreal d Hd). intros t Ht. symmetry. apply energy_sqrt.
      unfold ball in Ht; simpl in Ht. unfold AbsRing_ball, abs, minus, plus, opp in Ht; simpl in Ht.
      apply Rabs_def2 in Ht. lra.
    - rewrite load_sqrt by lra. auto_derive; [exact Hd|].
      assert (Hs : 0 < sqrt d) by (apply sqrt_lt_R0; exact Hd).
      assert (Q : sqrt d * sqrt d = d) by (apply sqrt_sqrt; lra).
      set (w := sqrt d) in *. clearbody w. subst d. field. lra.
  Qed.


  Lemma energy_RInt : forall d, 0 <= d ->
    is_RInt (fun t => normal_load t Rs Es) 0 d (elastic_energy d Rs Es).
  Proof.
    intros d Hd. apply (is_RInt_ext (fun t => 4 / 3 * Es * sqrt Rs * (t * sqrt t))).
    { intros t Ht. rewrite Rmin_left, Rmax_right in Ht by lra. symmetry. apply load_sqrt. lra. }
    assert (CS : forall x, continuous (fun t => t * sqrt t) x).
    { intros x. apply (continuous_mult (K := R_AbsRing)); [apply continuous_id|apply continuous_sqrt]. }
    replace (elastic_energy d Rs Es)
      with (8 / 15 * Es * sqrt Rs * (d ^ 2 * sqrt d) - 8 / 15 * Es * sqrt Rs * (0 ^ 2 * sqrt 0)).
    2: { rewrite energy_sqrt by exact Hd. ring. }
    apply (is_RInt_derive_open (fun t => 8 / 15 * Es * sqrt Rs * (t ^ 2 * sqrt t))).
    - exact Hd.
    - intros x _. apply (continuous_mult (K := R_AbsRing)); [apply continuous_const|].
      apply (continuous_ext (fun t => t * (t * sqrt t))); [intros; simpl; ring|].
      apply (continuous_mult (K := R_AbsRing)); [apply continuous_id|apply CS].
    - intros x _. apply (continuous_mult (K := R_AbsRing)); [apply continuous_const|apply CS].
    - intros x Hx. pose proof (energy_derive x ltac:(lra)) as D. rewrite load_sqrt in D by lra.
      apply (is_derive_ext_loc (fun t => elastic_energy t Rs Es)); [|exact D].
      assert (Hx' : 0 < x) by lra.
      exists (mkposreal x Hx'). intros t Ht. apply energy_sqrt.
      unfold ball in Ht; simpl in Ht. unfold AbsRing_ball, abs, minus, plus, opp in Ht; simpl in Ht.
      apply Rabs_def2 in Ht. lra.
  Qed.

  Lemma load_increasing : forall d1 d2, 0 <= d1 -> d1 < d2 -> normal_load d1 Rs Es < normal_load d2 Rs Es.
  Proof.
    intros d1 d2 H1 H2. unfold normal_load. apply Rmult_lt_compat_l; [lra|].
    apply sqrt_lt_1.
    - apply Rmult_le_pos; [apply pow_le; exact H1|lra].
    - apply Rmult_le_pos; [apply pow_le; lra|lra].
    - apply Rmult_lt_compat_r; [exact HR|].
      assert (0 <= d1 * d1) by nra. assert (d1 * d1 < d2 * d2) by nra. simpl. nra.
  Qed.
End Scalars.
