(** * The function s of the Greenwood-Tripp solution *)

From Coq Require Import Reals Lra Lia Psatz.
From Coquelicot Require Import Coquelicot.
From Verif Require Import Py Calc Hertz_Model Westergaard_Proofs Westergaard_Mean Westergaard_Log GreenwoodTripp_Model.
Local Open Scope R_scope.

(** ** The integrands *)
Lemma arg_pos : forall m t, m < 1 -> 0 < 1 - m * sin t ^ 2.
Proof.
  intros m t H. assert (0 <= sin t ^ 2 <= 1) by (rewrite s2; pose proof (COS_bound t); nra).
  destruct (Rle_dec m 0); nra.
Qed.
Lemma arg_nn : forall m t, m <= 1 -> 0 <= 1 - m * sin t ^ 2.
Proof.
  intros m t H. assert (0 <= sin t ^ 2 <= 1) by (rewrite s2; pose proof (COS_bound t); nra).
  destruct (Rle_dec m 0); nra.
Qed.
Lemma sqrt_arg_cont : forall m t, continuous (fun t => sqrt (1 - m * sin t ^ 2)) t.
Proof.
  intros m t. apply (continuous_sqrt_comp (fun t => 1 - m * sin t ^ 2)).
  apply c_minus; [apply c_const|]. apply c_scale. apply c_pow2. apply continuous_sin.
Qed.
Lemma inv_sqrt_cont : forall m t, m < 1 -> continuous (fun t => / sqrt (1 - m * sin t ^ 2)) t.
Proof.
  intros m t H. apply (continuous_comp (fun t => sqrt (1 - m * sin t ^ 2)) Rinv); [apply sqrt_arg_cont|].
  apply continuous_Rinv. apply Rgt_not_eq. apply sqrt_lt_R0, arg_pos; exact H.
Qed.
Lemma ex_E : forall m, ex_RInt (fun t => sqrt (1 - m * sin t ^ 2)) 0 (PI / 2).
Proof. intros m. apply (ex_RInt_continuous (V := R_CompleteNormedModule)). intros t _. apply sqrt_arg_cont. Qed.
Lemma ex_K : forall m, m < 1 -> ex_RInt (fun t => / sqrt (1 - m * sin t ^ 2)) 0 (PI / 2).
Proof. intros m H. apply (ex_RInt_continuous (V := R_CompleteNormedModule)). intros t _. apply inv_sqrt_cont; exact H. Qed.

(** [B(x) = x^2 * int cos^2 / sqrt(1 - x^2 sin^2)]. *)
Definition Bi (x t : R) : R := cos t ^ 2 / sqrt (1 - x ^ 2 * sin t ^ 2).
Lemma Bi_cont : forall x t, x ^ 2 < 1 -> continuous (Bi x) t.
Proof.
  intros x t H. unfold Bi, Rdiv. apply c_mult; [apply c_pow2, continuous_cos|apply inv_sqrt_cont; exact H].
Qed.
Lemma B_int : forall x, x ^ 2 < 1 -> is_RInt (fun t => x ^ 2 * Bi x t) 0 (PI / 2) (ell_B x).
Proof.
  intros x H. unfold ell_B.
  pose proof (RInt_correct (V := R_CompleteNormedModule) _ _ _ (ex_E (x ^ 2))) as HE.
  pose proof (RInt_correct (V := R_CompleteNormedModule) _ _ _ (ex_K (x ^ 2) H)) as HK.
  apply (is_RInt_scal (V := R_NormedModule) _ _ _ (x ^ 2 - 1)) in HK.
  pose proof (is_RInt_plus (V := R_NormedModule) _ _ _ _ _ _ HE HK) as S.
  apply (is_RInt_ext (V := R_NormedModule)
    (fun t => plus (sqrt (1 - x ^ 2 * sin t ^ 2)) (scal (x ^ 2 - 1) (/ sqrt (1 - x ^ 2 * sin t ^ 2))))); [|exact S].
  intros t _. change (sqrt (1 - x ^ 2 * sin t ^ 2) + (x ^ 2 - 1) * / sqrt (1 - x ^ 2 * sin t ^ 2) = x ^ 2 * Bi x t).
  unfold Bi. pose proof (sqrt_lt_R0 _ (arg_pos (x ^ 2) t H)) as Q.
  assert (E : sqrt (1 - x ^ 2 * sin t ^ 2) ^ 2 = 1 - x ^ 2 * sin t ^ 2) by (apply pow2_sqrt; left; apply arg_pos; exact H).
  set (w := sqrt (1 - x ^ 2 * sin t ^ 2)) in *.
  assert (EC : cos t ^ 2 = 1 - sin t ^ 2) by (rewrite s2; ring).
  rewrite EC. apply (Rmult_eq_reg_r w); [|lra]. field_simplify; [|lra|lra]. rewrite E. ring.
Qed.

(** Integral of [cos^2] and of [cos]. *)
Lemma cos2_int : is_RInt (fun t => cos t ^ 2) 0 (PI / 2) (PI / 4).
Proof.
  pose proof PI_RGT_0 as P. pose (F := fun t => (t + sin t * cos t) / 2).
  replace (PI / 4) with (F (PI / 2) - F 0).
  - apply is_RInt_derive_open; [lra| | |].
    + intros t _. unfold F. apply c_divc. apply c_plus; [apply continuous_id|].
      apply c_mult; [apply continuous_sin|apply continuous_cos].
    + intros t _. apply c_pow2, continuous_cos.
    + intros t _. unfold F. auto_derive; [trivial|].
      assert (EC : sin t ^ 2 = 1 - cos t ^ 2) by (rewrite s2; ring). field [EC].
  - unfold F. rewrite cos_PI2, sin_0. field.
Qed.
Lemma cos_int1 : is_RInt cos 0 (PI / 2) 1.
Proof.
  pose proof PI_RGT_0 as P. replace 1 with (sin (PI / 2) - sin 0) by (rewrite sin_PI2, sin_0; ring).
  apply is_RInt_derive_open; [lra| | |].
  - intros t _. apply continuous_sin.
  - intros t _. apply continuous_cos.
  - intros t _. apply is_derive_sin.
Qed.

(** Strict monotonicity of integrals of continuous functions. *)
Lemma RInt_le' : forall (f g : R -> R) a b u v, a <= b -> is_RInt f a b u -> is_RInt g a b v ->
  (forall t, a < t < b -> f t <= g t) -> u <= v.
Proof. intros f g a b u v H If Ig L. apply (is_RInt_le f g a b u v H If Ig L). Qed.
Lemma RInt_lt' : forall (f g : R -> R) a b u v, a < b ->
  (forall t, a <= t <= b -> continuous f t) -> (forall t, a <= t <= b -> continuous g t) ->
  is_RInt f a b u -> is_RInt g a b v -> (forall t, a < t < b -> f t < g t) -> u < v.
Proof.
  intros f g a b u v H Cf Cg If Ig L.
  apply (is_RInt_unique (V := R_CompleteNormedModule)) in If. apply (is_RInt_unique (V := R_CompleteNormedModule)) in Ig.
  rewrite <- If, <- Ig. apply RInt_lt; assumption.
Qed.

Section Ranges.
  Let P := PI_RGT_0.
  Lemma PI2_gt0 : 0 < PI / 2.
  Proof. pose proof PI_RGT_0. lra. Qed.
  Lemma trig_in : forall t, 0 < t < PI / 2 -> 0 < sin t < 1 /\ 0 < cos t < 1.
  Proof.
    intros t H. assert (0 < sin t) by (apply sin_gt_0; lra). assert (0 < cos t) by (apply cos_gt_0; lra).
    pose proof (s2 t). nra.
  Qed.

  (** [B] between its small-argument value and [x^2]. *)
  Lemma B_lower : forall x, x ^ 2 < 1 -> x ^ 2 * (PI / 4) <= ell_B x.
  Proof.
    intros x H. pose proof cos2_int as C. apply (is_RInt_scal (V := R_NormedModule) _ _ _ (x ^ 2)) in C.
    refine (RInt_le' _ _ _ _ _ _ (Rlt_le _ _ PI2_gt0) C (B_int x H) _).
    intros t Ht. change (x ^ 2 * cos t ^ 2 <= x ^ 2 * Bi x t). apply Rmult_le_compat_l; [nra|].
    unfold Bi. pose proof (sqrt_lt_R0 _ (arg_pos (x ^ 2) t H)) as Q.
    assert (S : sqrt (1 - x ^ 2 * sin t ^ 2) <= 1).
    { apply Rle_trans with (sqrt 1); [|rewrite sqrt_1; lra]. apply sqrt_le_1; [left; apply arg_pos; exact H|lra|].
      assert (0 <= x ^ 2 * sin t ^ 2) by (apply Rmult_le_pos; nra). lra. }
    apply (Rmult_le_reg_r (sqrt (1 - x ^ 2 * sin t ^ 2))); [exact Q|].
    unfold Rdiv. rewrite Rmult_assoc, Rinv_l by lra. assert (0 <= cos t ^ 2) by nra. nra.
  Qed.
  Lemma Bi_upper : forall x t, x ^ 2 < 1 -> 0 < t < PI / 2 -> Bi x t < cos t.
  Proof.
    intros x t H Ht. destruct (trig_in t Ht) as [S C]. unfold Bi.
    pose proof (arg_pos (x ^ 2) t H) as A. pose proof (sqrt_lt_R0 _ A) as Q.
    assert (L : cos t < sqrt (1 - x ^ 2 * sin t ^ 2)).
    { rewrite <- (sqrt_pow2 (cos t)) by lra. apply sqrt_lt_1; [nra|lra|]. 
      assert (EC : cos t ^ 2 = 1 - sin t ^ 2) by (rewrite s2; ring). rewrite EC.
      assert (0 < sin t ^ 2) by nra. nra. }
    apply (Rmult_lt_reg_r (sqrt (1 - x ^ 2 * sin t ^ 2))); [exact Q|].
    unfold Rdiv. rewrite Rmult_assoc, Rinv_l by lra. nra.
  Qed.
  Lemma B_upper : forall x, 0 < x < 1 -> ell_B x < x ^ 2.
  Proof.
    intros x H. assert (H1 : x ^ 2 < 1) by nra.
    pose proof cos_int1 as C. apply (is_RInt_scal (V := R_NormedModule) _ _ _ (x ^ 2)) in C.
    change (scal (x ^ 2) 1) with (x ^ 2 * 1) in C. rewrite Rmult_1_r in C.
    refine (RInt_lt' _ _ _ _ _ _ PI2_gt0 _ _ (B_int x H1) C _).
    - intros t _. apply c_scale. apply Bi_cont; exact H1.
    - intros t _. apply c_scale. apply continuous_cos.
    - intros t Ht. change (x ^ 2 * Bi x t < x ^ 2 * cos t). apply Rmult_lt_compat_l; [nra|]. apply Bi_upper; assumption.
  Qed.
  (** The small-argument formula is off by a factor of at most [1/sqrt(1-x^2)]. *)
  Lemma B_near : forall x, x ^ 2 < 1 -> ell_B x * sqrt (1 - x ^ 2) <= x ^ 2 * (PI / 4).
  Proof.
    intros x H. pose proof cos2_int as C. apply (is_RInt_scal (V := R_NormedModule) _ _ _ (x ^ 2)) in C.
    pose proof (B_int x H) as B. apply (is_RInt_scal (V := R_NormedModule) _ _ _ (sqrt (1 - x ^ 2))) in B.
    rewrite Rmult_comm. refine (RInt_le' _ _ _ _ _ _ (Rlt_le _ _ PI2_gt0) B C _).
    intros t Ht. change (sqrt (1 - x ^ 2) * (x ^ 2 * Bi x t) <= x ^ 2 * cos t ^ 2).
    destruct (trig_in t Ht) as [S Cc]. pose proof (sqrt_lt_R0 _ (arg_pos (x ^ 2) t H)) as Q.
    assert (L : sqrt (1 - x ^ 2) <= sqrt (1 - x ^ 2 * sin t ^ 2)).
    { apply sqrt_le_1; [lra|left; apply arg_pos; exact H|]. assert (sin t ^ 2 <= 1) by nra. assert (0 <= x ^ 2) by nra. nra. }
    unfold Bi. replace (sqrt (1 - x ^ 2) * (x ^ 2 * (cos t ^ 2 / sqrt (1 - x ^ 2 * sin t ^ 2))))
      with (x ^ 2 * (cos t ^ 2) * (sqrt (1 - x ^ 2) / sqrt (1 - x ^ 2 * sin t ^ 2))) by (field; lra).
    assert (D : sqrt (1 - x ^ 2) / sqrt (1 - x ^ 2 * sin t ^ 2) <= 1).
    { apply (Rmult_le_reg_r (sqrt (1 - x ^ 2 * sin t ^ 2))); [exact Q|]. unfold Rdiv. rewrite Rmult_assoc, Rinv_l by lra. lra. }
    assert (0 <= x ^ 2 * cos t ^ 2) by (apply Rmult_le_pos; nra). nra.
  Qed.
  Lemma B_incr : forall x y, 0 <= x -> x < y -> y < 1 -> ell_B x < ell_B y.
  Proof.
    intros x y Hx H Hy. assert (H1 : x ^ 2 < 1) by nra. assert (H2 : y ^ 2 < 1) by nra.
    refine (RInt_lt' _ _ _ _ _ _ PI2_gt0 _ _ (B_int x H1) (B_int y H2) _).
    - intros t _. apply c_scale. apply Bi_cont; exact H1.
    - intros t _. apply c_scale. apply Bi_cont; exact H2.
    - intros t Ht. destruct (trig_in t Ht) as [S C]. unfold Bi.
      pose proof (arg_pos (x ^ 2) t H1) as A1. pose proof (arg_pos (y ^ 2) t H2) as A2.
      pose proof (sqrt_lt_R0 _ A1) as Q1. pose proof (sqrt_lt_R0 _ A2) as Q2.
      assert (L : sqrt (1 - y ^ 2 * sin t ^ 2) <= sqrt (1 - x ^ 2 * sin t ^ 2)).
      { apply sqrt_le_1; [lra|lra|]. assert (0 < sin t ^ 2) by nra. assert (x ^ 2 <= y ^ 2) by nra. nra. }
      apply Rlt_le_trans with (y ^ 2 * (cos t ^ 2 / sqrt (1 - x ^ 2 * sin t ^ 2))).
      + apply Rmult_lt_compat_r; [apply Rdiv_lt_0_compat; [nra|exact Q1]|nra].
      + apply Rmult_le_compat_l; [nra|]. unfold Rdiv. apply Rmult_le_compat_l; [nra|].
        apply Rinv_le_contravar; assumption.
  Qed.

  (** ** The outer branch *)
  Lemma E_int : forall x, 0 < x -> is_RInt (fun t => sqrt (x ^ 2 - sin t ^ 2)) 0 (PI / 2) (x * ellipe (1 / x ^ 2)).
  Proof.
    intros x H. pose proof (RInt_correct (V := R_CompleteNormedModule) _ _ _ (ex_E (1 / x ^ 2))) as HE.
    apply (is_RInt_scal (V := R_NormedModule) _ _ _ x) in HE.
    apply (is_RInt_ext (V := R_NormedModule) (fun t => scal x (sqrt (1 - 1 / x ^ 2 * sin t ^ 2)))); [|exact HE].
    intros t _. change (x * sqrt (1 - 1 / x ^ 2 * sin t ^ 2) = sqrt (x ^ 2 - sin t ^ 2)).
    rewrite <- (sqrt_pow2 x) at 1 by lra. rewrite <- sqrt_mult_alt by nra. f_equal. field. lra.
  Qed.
  Lemma sq_cont : forall x t, continuous (fun t => sqrt (x ^ 2 - sin t ^ 2)) t.
  Proof.
    intros x t. apply (continuous_sqrt_comp (fun t => x ^ 2 - sin t ^ 2)).
    apply c_minus; [apply c_const|]. apply c_pow2. apply continuous_sin.
  Qed.
  Lemma E_incr : forall x y, 1 <= x -> x < y -> x * ellipe (1 / x ^ 2) < y * ellipe (1 / y ^ 2).
  Proof.
    intros x y Hx H.
    refine (RInt_lt' _ _ _ _ _ _ PI2_gt0 _ _ (E_int x ltac:(lra)) (E_int y ltac:(lra)) _).
    - intros t _. apply sq_cont.
    - intros t _. apply sq_cont.
    - intros t Ht. destruct (trig_in t Ht) as [S C]. apply sqrt_lt_1; nra.
  Qed.
  Lemma const_int : forall c, is_RInt (fun _ : R => c) 0 (PI / 2) (c * (PI / 2)).
  Proof.
    intros c. pose proof (is_RInt_const (V := R_NormedModule) 0 (PI / 2) c) as H.
    replace (c * (PI / 2)) with (scal (PI / 2 - 0) (c : R_NormedModule)); [exact H|].
    change ((PI / 2 - 0) * c = c * (PI / 2)). ring.
  Qed.
  Lemma E_bounds : forall x, 1 <= x -> sqrt (x ^ 2 - 1) * (PI / 2) <= x * ellipe (1 / x ^ 2) <= x * (PI / 2).
  Proof.
    intros x H. split.
    - refine (RInt_le' _ _ _ _ _ _ (Rlt_le _ _ PI2_gt0) (const_int _) (E_int x ltac:(lra)) _).
      intros t Ht. destruct (trig_in t Ht) as [S C]. apply sqrt_le_1; nra.
    - refine (RInt_le' _ _ _ _ _ _ (Rlt_le _ _ PI2_gt0) (E_int x ltac:(lra)) (const_int _) _).
      intros t Ht. destruct (trig_in t Ht) as [S C]. rewrite <- (sqrt_pow2 x) at 2 by lra. apply sqrt_le_1; nra.
  Qed.
  Lemma E_one : 1 * ellipe (1 / 1 ^ 2) = 1.
  Proof.
    pose proof (E_int 1 ltac:(lra)) as H. apply (is_RInt_unique (V := R_CompleteNormedModule)) in H. rewrite <- H.
    apply is_RInt_unique. apply (is_RInt_ext cos); [|apply cos_int1].
    intros t Ht. pose proof PI2_gt0. rewrite Rmin_left, Rmax_right in Ht by lra. destruct (trig_in t Ht) as [S C].
    replace (1 ^ 2 - sin t ^ 2) with (cos t ^ 2) by (rewrite s2; ring). inR. rewrite sqrt_pow2 by lra. reflexivity.
  Qed.
End Ranges.

(** ** The function s *)
Lemma s1e5_val : 0 < s1e5 < 1.
Proof. unfold s1e5. split; [apply Rinv_0_lt_compat; lra|]. apply (Rmult_lt_reg_r (10 ^ 5)); [lra|]. rewrite Rinv_l by lra. lra. Qed.

Lemma s_small : forall x, x < s1e5 -> s_fun x = x ^ 2 / 2.
Proof. intros x H. unfold s_fun. destruct (Rlt_dec x s1e5); [reflexivity|lra]. Qed.
Lemma s_mid : forall x, s1e5 <= x -> x < 1 -> s_fun x = 2 / PI * ell_B x.
Proof.
  intros x H1 H2. unfold s_fun. destruct (Rlt_dec x s1e5); [lra|].
  destruct (Rgt_dec x (10 ^ 5)); [lra|]. destruct (Rlt_dec x 1); [reflexivity|lra].
Qed.
Lemma s_out : forall x, 1 <= x -> x <= 10 ^ 5 -> s_fun x = 2 / PI * (x * ellipe (1 / x ^ 2)).
Proof.
  intros x H1 H2. pose proof s1e5_val. unfold s_fun. destruct (Rlt_dec x s1e5); [lra|].
  destruct (Rgt_dec x (10 ^ 5)); [lra|]. destruct (Rlt_dec x 1); [lra|ring].
Qed.
Lemma s_large : forall x, 10 ^ 5 < x -> s_fun x = x.
Proof.
  intros x H. pose proof s1e5_val. unfold s_fun. destruct (Rlt_dec x s1e5); [lra|].
  destruct (Rgt_dec x (10 ^ 5)); [reflexivity|lra].
Qed.
Lemma q_pos : 0 < 2 / PI.
Proof. apply Rdiv_lt_0_compat; [lra|apply PI_RGT_0]. Qed.

Lemma s_increasing : forall x y, 0 <= x -> x < y -> s_fun x < s_fun y.
Proof.
  intros x y Hx H. pose proof s1e5_val as V. pose proof q_pos as Q. pose proof PI_RGT_0 as P.
  assert (T1 : forall u v, 0 <= u -> u < v -> u < s1e5 -> s1e5 <= v -> v < 1 -> s_fun u < s_fun v).
  { intros u v H0 H1 H2 H3 H4. rewrite s_small, s_mid by lra.
    pose proof (B_lower v ltac:(nra)) as B. apply (Rmult_le_compat_l (2 / PI)) in B; [|lra].
    replace (2 / PI * (v ^ 2 * (PI / 4))) with (v ^ 2 / 2) in B by (field; lra). nra. }
  assert (T2 : forall u, 0 <= u -> u < 1 -> s_fun u < 2 / PI).
  { intros u H0 H1. destruct (Rlt_le_dec u s1e5) as [L|L].
    - assert (H2 : s_fun u < s_fun s1e5) by (apply T1; lra).
      apply Rlt_trans with (s_fun s1e5); [exact H2|]. rewrite s_mid by lra.
      pose proof (B_upper s1e5 ltac:(lra)) as B. rewrite <- (Rmult_1_r (2 / PI)) at 2. apply Rmult_lt_compat_l; [exact Q|nra].
    - rewrite s_mid by lra. pose proof (B_upper u ltac:(lra)) as B.
      rewrite <- (Rmult_1_r (2 / PI)) at 2. apply Rmult_lt_compat_l; [exact Q|nra]. }
  assert (T3 : forall v, 1 <= v -> 2 / PI <= s_fun v).
  { intros v H1. destruct (Rle_lt_dec v (10 ^ 5)) as [L|L].
    - rewrite s_out by lra. rewrite <- (Rmult_1_r (2 / PI)) at 1. apply Rmult_le_compat_l; [lra|].
      destruct H1 as [H1|H1]; [|subst v; rewrite E_one; lra].
      rewrite <- E_one at 1. left. apply E_incr; lra.
    - rewrite s_large by exact L. apply Rle_trans with 1; [|lra].
      apply (Rmult_le_reg_r PI); [lra|]. unfold Rdiv. rewrite Rmult_assoc, Rinv_l by lra. pose proof PI2_1. lra. }
  destruct (Rlt_le_dec y 1) as [Y1|Y1].
  - destruct (Rlt_le_dec x s1e5) as [X|X].
    + destruct (Rlt_le_dec y s1e5) as [Y|Y]; [rewrite !s_small by lra; nra|apply T1; lra].
    + rewrite !s_mid by lra. apply Rmult_lt_compat_l; [exact Q|]. apply B_incr; lra.
  - destruct (Rlt_le_dec x 1) as [X1|X1].
    + apply Rlt_le_trans with (2 / PI); [apply T2|apply T3]; lra.
    + destruct (Rle_lt_dec y (10 ^ 5)) as [Y|Y].
      * rewrite !s_out by lra. apply Rmult_lt_compat_l; [exact Q|]. apply E_incr; lra.
      * rewrite (s_large y) by exact Y. destruct (Rle_lt_dec x (10 ^ 5)) as [X|X]; [|rewrite s_large by exact X; exact H].
        rewrite s_out by lra. apply Rle_lt_trans with x; [|exact H].
        pose proof (proj2 (E_bounds x X1)) as B. apply (Rmult_le_compat_l (2 / PI)) in B; [|lra].
        replace (2 / PI * (x * (PI / 2))) with x in B by (field; lra). exact B.
Qed.
Lemma s_0 : s_fun 0 = 0.
Proof. pose proof s1e5_val. rewrite s_small by lra. field. Qed.
