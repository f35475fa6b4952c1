(** * Analysis of the finite-thickness correction
    (FFTElasticHalfSpace.py, lines 524-548) *)

From Coq Require Import Reals Lra Lia.
From Coquelicot Require Import Coquelicot.
From Verif Require Import HalfSpace_Model.
Local Open Scope R_scope.

Lemma cosh_ge_1 : forall x, 1 <= cosh x.
Proof.
  intros. unfold cosh.
  assert (E : exp x * exp (- x) = 1) by (rewrite <- exp_plus, Rplus_opp_r; apply exp_0).
  set (a := exp x) in *. pose proof (exp_pos (- x)) as Hb. set (b := exp (- x)) in *.
  assert (P : 0 <= b * (a - 1) ^ 2) by (apply Rmult_le_pos; [lra|apply pow2_ge_0]).
  replace (b * (a - 1) ^ 2) with ((a * b) * a - 2 * (a * b) + b) in P by ring.
  rewrite E in P. lra.
Qed.

Lemma sinh_gt : forall x, 0 < x -> x < sinh x.
Proof.
  intros x Hx.
  destruct (MVT_cor2 (fun t => sinh t - t) (fun t => cosh t - 1) 0 x Hx) as [c [Hc Hcx]].
  { intros c Hc.
    apply (derivable_pt_lim_minus sinh id c (cosh c) 1).
    - apply derivable_pt_lim_sinh.
    - apply derivable_pt_lim_id. }
  rewrite sinh_0 in Hc.
  assert (H1 : 1 < cosh c).
  { unfold cosh.
    assert (E : exp c * exp (- c) = 1) by (rewrite <- exp_plus, Rplus_opp_r; apply exp_0).
    pose proof (exp_ineq1 c ltac:(lra)) as Hc1. pose proof (exp_pos (- c)) as Hb.
    set (a := exp c) in *. set (b := exp (- c)) in *.
    assert (P : 0 < b * (a - 1) ^ 2)
      by (apply Rmult_lt_0_compat; [lra|apply pow_lt; lra]).
    replace (b * (a - 1) ^ 2) with ((a * b) * a - 2 * (a * b) + b) in P by ring.
    rewrite E in P. lra. }
  assert (0 < (cosh c - 1) * (x - 0)) by (apply Rmult_lt_0_compat; lra). lra.
Qed.

Lemma cosh_half : forall x, cosh x = 1 + 2 * (sinh (x / 2)) ^ 2.
Proof.
  intros. unfold cosh, sinh.
  replace x with (x / 2 + x / 2) at 1 by field.
  replace (- x) with (- (x / 2) + - (x / 2)) by field.
  rewrite !exp_plus.
  assert (E : exp (x / 2) * exp (- (x / 2)) = 1)
    by (rewrite <- exp_plus, Rplus_opp_r; apply exp_0).
  set (a := exp (x / 2)) in *. set (b := exp (- (x / 2))) in *.
  replace (((a - b) / 2) ^ 2) with ((a * a + b * b - 2 * (a * b)) / 4) by field.
  rewrite E. field.
Qed.

Lemma sinh_ge_cube : forall x, 0 < x -> x ^ 3 / 6 < sinh x.
Proof.
  intros x Hx.
  destruct (MVT_cor2 (fun t => sinh t - t ^ 3 / 6) (fun t => cosh t - t ^ 2 / 2) 0 x Hx)
    as [c [Hc Hcx]].
  { intros c Hc.
    apply (derivable_pt_lim_minus sinh (fun t => t ^ 3 / 6) c (cosh c) (c ^ 2 / 2)).
    - apply derivable_pt_lim_sinh.
    - apply is_derive_Reals. auto_derive; auto. field. }
  rewrite sinh_0 in Hc.
  assert (H1 : c ^ 2 / 2 < cosh c).
  { rewrite cosh_half. pose proof (sinh_gt (c / 2) ltac:(lra)).
    assert ((c / 2) ^ 2 < sinh (c / 2) ^ 2) by (simpl; nra).
    simpl in *. nra. }
  assert (0 < (cosh c - c ^ 2 / 2) * (x - 0)) by (apply Rmult_lt_0_compat; lra).
  simpl in *. lra.
Qed.

Lemma thick_den_pos : forall nu q, nu < 1 / 2 -> 0 < q ->
  0 < (3 - 4 * nu) * sinh (2 * q) - 2 * q.
Proof. intros. pose proof (sinh_gt (2 * q) ltac:(lra)). nra. Qed.

Lemma thick_corr_gt_1 : forall nu q, nu < 1 / 2 -> 0 < q -> 1 < thick_corr nu q.
Proof.
  intros nu q Hn Hq. unfold thick_corr.
  pose proof (thick_den_pos nu q Hn Hq) as D.
  apply (Rmult_lt_reg_r ((3 - 4 * nu) * sinh (2 * q) - 2 * q)); [assumption|].
  unfold Rdiv. rewrite Rmult_assoc, Rinv_l, Rmult_1_r, Rmult_1_l by lra.
  assert (E : cosh (2 * q) - sinh (2 * q) = exp (- (2 * q))).
  { unfold cosh, sinh. field. }
  pose proof (exp_pos (- (2 * q))).
  assert (0 < (3 - 4 * nu) * (cosh (2 * q) - sinh (2 * q))).
  { rewrite E. apply Rmult_lt_0_compat; lra. }
  assert (0 < 4 * nu * (2 * nu - 3) + 5) by nra.
  assert (0 <= q ^ 2) by apply pow2_ge_0. nra.
Qed.

(** [corr - 1] decays at least like 1/q. *)
Lemma thick_corr_bound : forall nu q, nu < 1 / 2 -> 1 <= q ->
  0 < thick_corr nu q - 1
    <= ((3 - 4 * nu) + 4 + (4 * nu * (2 * nu - 3) + 5)) / (2 - 4 * nu) / q.
Proof.
  intros nu q Hn Hq. split; [pose proof (thick_corr_gt_1 nu q Hn ltac:(lra)); lra|].
  set (off := 4 * nu * (2 * nu - 3) + 5).
  assert (Ho : 0 < off) by (unfold off; nra).
  pose proof (thick_den_pos nu q Hn ltac:(lra)) as D.
  pose proof (sinh_ge_cube (2 * q) ltac:(lra)) as S3.
  pose proof (sinh_gt (2 * q) ltac:(lra)) as S1.
  assert (D2 : (2 - 4 * nu) * q ^ 3 <= (3 - 4 * nu) * sinh (2 * q) - 2 * q).
  { assert ((2 - 4 * nu) * q ^ 3 <= (2 - 4 * nu) * sinh (2 * q)).
    { apply Rmult_le_compat_l; [lra|].
      assert (0 < q ^ 3) by (apply pow_lt; lra).
      replace ((2 * q) ^ 3 / 6) with (4 / 3 * q ^ 3) in S3 by field. lra. }
    lra. }
  assert (E : thick_corr nu q - 1
    = ((3 - 4 * nu) * exp (- (2 * q)) + 2 * q ^ 2 + 2 * q + off)
      / ((3 - 4 * nu) * sinh (2 * q) - 2 * q)).
  { unfold thick_corr. fold off.
    replace (exp (- (2 * q))) with (cosh (2 * q) - sinh (2 * q)) by (unfold cosh, sinh; field).
    field. lra. }
  rewrite E.
  assert (X : exp (- (2 * q)) <= 1).
  { rewrite <- exp_0. left. apply exp_increasing. lra. }
  assert (Nb : (3 - 4 * nu) * exp (- (2 * q)) + 2 * q ^ 2 + 2 * q + off
               <= ((3 - 4 * nu) + 4 + off) * q ^ 2).
  { assert (1 <= q ^ 2) by (simpl; nra).
    assert ((3 - 4 * nu) * exp (- (2 * q)) <= (3 - 4 * nu) * 1)
      by (apply Rmult_le_compat_l; lra).
    assert (q <= q ^ 2) by (simpl; nra). nra. }
  assert (q3 : 0 < q ^ 3) by (apply pow_lt; lra).
  assert (q2 : 0 < q ^ 2) by (apply pow_lt; lra).
  apply Rle_trans with (((3 - 4 * nu) + 4 + off) * q ^ 2 / ((2 - 4 * nu) * q ^ 3)).
  - unfold Rdiv. apply Rmult_le_compat.
    + pose proof (exp_pos (- (2 * q))). nra.
    + left. apply Rinv_0_lt_compat. assumption.
    + assumption.
    + apply Rinv_le_contravar; [apply Rmult_lt_0_compat; lra|assumption].
  - right. field. lra.
Qed.

Lemma thick_corr_lim_infty : forall nu, nu < 1 / 2 ->
  is_lim (thick_corr nu) p_infty 1.
Proof.
  intros nu Hn.
  set (c := ((3 - 4 * nu) + 4 + (4 * nu * (2 * nu - 3) + 5)) / (2 - 4 * nu)).
  apply (is_lim_le_le_loc (fun _ => 1) (fun q => 1 + c * / q)).
  - exists 1. intros q Hq.
    pose proof (thick_corr_bound nu q Hn ltac:(lra)) as B. fold c in B.
    unfold Rdiv in B. lra.
  - apply is_lim_const.
  - replace (Finite 1) with (Finite (1 + c * 0)) by (f_equal; ring).
    apply (is_lim_plus' (fun _ => 1) (fun q => c * / q) p_infty 1 (c * 0)).
    + apply is_lim_const.
    + apply (is_lim_scal_l (fun q => / q) c p_infty 0).
      apply (is_lim_inv (fun q => q) p_infty p_infty); [apply is_lim_id|discriminate].
Qed.

(** Long wavelengths: the stiffness of the layer tends to the value stored for
    q = 0 (lines 543-548). *)
Lemma thick_q0_limit : forall young nu t, 0 < t -> -1 < nu < 1 / 2 ->
  is_lim (fun q => PI * (young / (1 - nu ^ 2)) * q * thick_corr nu (q * (2 * PI * t)))
         0 (thick_q0 young t nu).
Proof.
  intros young nu t Ht Hn.
  pose proof PI_RGT_0 as Hpi.
  set (a := 2 * PI * t). assert (Ha : 0 < a) by (unfold a; nra).
  (* sinh (2 Q) / Q -> 2 *)
  assert (L1 : is_lim (fun q => (sinh (2 * (q * a))) / q) 0 (2 * a)).
  { assert (D : is_derive (fun q => sinh (2 * (q * a))) 0 (2 * a)).
    { apply (is_derive_ext (fun q => (exp (2 * (q * a)) - exp (- (2 * (q * a)))) / 2)).
      - intros. reflexivity.
      - auto_derive; auto.
        rewrite !Rmult_0_l, !Rmult_0_r, Ropp_0, exp_0. field. }
    apply is_derive_Reals in D.
    apply is_lim_spec. intros eps.
    destruct (D eps (cond_pos eps)) as [del Hd].
    exists del. intros q Hq Hq0. unfold ball in Hq. simpl in Hq.
    unfold AbsRing_ball, abs, minus, plus, opp in Hq. simpl in Hq.
    assert (Hqd : Rabs q < del) by (replace q with (q + - 0) by ring; exact Hq).
    specialize (Hd q Hq0 Hqd).
    rewrite Rplus_0_l, Rmult_0_l, Rmult_0_r, sinh_0, Rminus_0_r in Hd. exact Hd. }
  set (fac := 3 - 4 * nu). set (off := 4 * nu * (2 * nu - 3) + 5).
  assert (Lden : is_lim (fun q => fac * (sinh (2 * (q * a)) / q) - 2 * a) 0
                   (fac * (2 * a) - 2 * a)).
  { apply (is_lim_minus' _ (fun _ => 2 * a)).
    - apply (is_lim_scal_l _ fac 0 (2 * a)). exact L1.
    - apply is_lim_const. }
  assert (Lnum : is_lim (fun q => fac * cosh (2 * (q * a)) + 2 * (q * a) ^ 2 + off) 0
                   (fac + off)).
  { assert (C : continuity_pt (fun q => fac * cosh (2 * (q * a)) + 2 * (q * a) ^ 2 + off) 0).
    { apply derivable_continuous_pt. apply ex_derive_Reals_0.
      apply (ex_derive_ext (fun q => fac * ((exp (2 * (q * a)) + exp (- (2 * (q * a)))) / 2)
          + 2 * (q * a) ^ 2 + off)).
      - intros. reflexivity.
      - auto_derive. auto. }
    assert (V : fac * cosh (2 * (0 * a)) + 2 * (0 * a) ^ 2 + off = fac + off).
    { rewrite Rmult_0_l, Rmult_0_r, cosh_0. ring. }
    rewrite <- V. apply (is_lim_continuity (fun q => fac * cosh (2 * (q * a)) + 2 * (q * a) ^ 2 + off) 0 C). }
  assert (Dp : 0 < a * (2 - 4 * nu)) by (apply Rmult_lt_0_compat; lra).
  assert (Dn : fac * (2 * a) - 2 * a <> 0).
  { unfold fac. replace ((3 - 4 * nu) * (2 * a) - 2 * a) with (2 * (a * (2 - 4 * nu))) by ring.
    lra. }
  assert (E : thick_q0 young t nu
              = PI * (young / (1 - nu ^ 2)) * ((fac + off) / (fac * (2 * a) - 2 * a))).
  { unfold thick_q0, fac, off. unfold fac, a in *. clear - Ht Hn Hpi Dn.
    field. repeat split; first [exact Dn | lra | nra]. }
  rewrite E.
  apply (is_lim_ext_loc (fun q => PI * (young / (1 - nu ^ 2))
     * ((fac * cosh (2 * (q * a)) + 2 * (q * a) ^ 2 + off)
        / (fac * (sinh (2 * (q * a)) / q) - 2 * a)))).
  - assert (Ld : Rbar_locally' 0 (fun q => fac * (sinh (2 * (q * a)) / q) - 2 * a <> 0)).
    { apply is_lim_spec in Lden. simpl in Lden.
      assert (P : 0 < Rabs (fac * (2 * a) - 2 * a)) by (apply Rabs_pos_lt; assumption).
      destruct (Lden (mkposreal _ P)) as [d Hd]. exists d. intros q Hq Hq0 Z.
      specialize (Hd q Hq Hq0). simpl in Hd. rewrite Z in Hd.
      rewrite Rminus_0_l, Rabs_Ropp in Hd. lra. }
    destruct Ld as [d Hd]. exists d. intros q Hq Hq0.
    specialize (Hd q Hq Hq0). unfold thick_corr. fold fac off a.
    assert (Z : fac * sinh (2 * (q * a)) - 2 * (q * a) <> 0).
    { intro Z. apply Hd.
      replace (fac * (sinh (2 * (q * a)) / q) - 2 * a)
        with ((fac * sinh (2 * (q * a)) - 2 * (q * a)) / q) by (field; assumption).
      rewrite Z. unfold Rdiv. ring. }
    field. repeat split; try assumption.
    * nra.
  - apply (is_lim_scal_l _ (PI * (young / (1 - nu ^ 2))) 0
             ((fac + off) / (fac * (2 * a) - 2 * a))).
    apply (is_lim_mult _ (fun q => / (fac * (sinh (2 * (q * a)) / q) - 2 * a)) 0 (fac + off)
             (/ (fac * (2 * a) - 2 * a))); [exact Lnum| |exact I].
    apply (is_lim_inv _ 0 (fac * (2 * a) - 2 * a)); [exact Lden|].
    intro Z. apply Dn. injection Z. auto.
Qed.
