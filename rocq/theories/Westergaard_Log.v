(** * The integral of the logarithm in the Westergaard gap

    With [k = cos(pi a)] and [cos(pi x) = k sin t] the integral over the gap
    of [ln((sin(pi x) + chi) / sin(pi a))] becomes
    [1/pi * int_0^{pi/2} Phi(k sin t) dt], whose derivative in [k] is
    elementary.  The result is [- ln(sin(pi a)) / 2]. *)

From Coq Require Import Reals Lra Lia Psatz.
From Coquelicot Require Import Coquelicot.
From Verif Require Import Py Calc Hertz_Disp Westergaard_Model Westergaard_Proofs Westergaard_Mean.
Local Open Scope R_scope.

Definition Phi (u : R) : R := u * asin u / sqrt (1 - u ^ 2).
Definition dPhi (u : R) : R := asin u / ((1 - u ^ 2) * sqrt (1 - u ^ 2)) + u / (1 - u ^ 2).

Lemma one_minus_sq : forall u, -1 < u < 1 -> 0 < 1 - u ^ 2.
Proof. intros u H. nra. Qed.
Lemma Phi_derive : forall u, -1 < u < 1 -> is_derive Phi u (dPhi u).
Proof.
  intros u H. pose proof (one_minus_sq u H) as P. pose proof (sqrt_lt_R0 _ P) as Q.
  pose proof (is_derive_asin u H) as Da.
  pose (g := fun u : R => sqrt (1 - u ^ 2)).
  assert (Dg : is_derive g u (- u / g u)).
  { unfold g. evar_last.
    - apply (is_derive_comp sqrt (fun t => 1 - t ^ 2)).
      + apply is_derive_Reals, derivable_pt_lim_sqrt. exact P.
      + auto_derive; [trivial|reflexivity].
    - unfold scal; simpl; unfold mult; simpl. field. simpl in Q. lra. }
  assert (EQ : g u ^ 2 = 1 - u ^ 2) by (unfold g; rewrite pow2_sqrt; [reflexivity|lra]).
  unfold dPhi. change (0 < g u) in Q.
  change (is_derive (fun u => u * asin u / g u) u (asin u / ((1 - u ^ 2) * g u) + u / (1 - u ^ 2))).
  change (is_derive asin u (/ g u)) in Da.
  pose proof (is_derive_unique g _ _ Dg) as U1. pose proof (is_derive_unique asin _ _ Da) as U2.
  rewrite <- EQ. clearbody g.
  auto_derive.
  - split; [eexists; exact Da|]. split; [eexists; exact Dg|]. split; [lra|trivial].
  - replace (Derive (fun x0 : R => asin x0) u) with (/ g u) by (symmetry; exact U2).
    replace (Derive (fun x0 : R => g x0) u) with (- u / g u) by (symmetry; exact U1).
    field_simplify; [|lra|lra].
    replace (u ^ 2) with (1 - g u ^ 2) by lra. field. lra.
Qed.
Lemma asin_cont_in : forall u, -1 < u < 1 -> continuous asin u.
Proof. intros u H. apply asin_continuous; lra. Qed.
Lemma c_div : forall (f g : R -> R) x, continuous f x -> continuous g x -> g x <> 0 -> continuous (fun t => f t / g t) x.
Proof.
  intros f g x Hf Hg N. apply (c_mult f (fun t => / g t)); [exact Hf|].
  apply (continuous_comp g Rinv); [exact Hg|]. apply continuous_Rinv. exact N.
Qed.
Lemma c_sqrt1 : forall x, continuous (fun u : R => sqrt (1 - u ^ 2)) x.
Proof.
  intros x. apply (continuous_sqrt_comp (fun u => 1 - u ^ 2)).
  apply c_minus; [apply c_const|]. apply c_pow2. apply continuous_id.
Qed.
Lemma Phi_cont : forall u, -1 < u < 1 -> continuous Phi u.
Proof.
  intros u H. apply (ex_derive_continuous (K := R_AbsRing) (V := R_NormedModule) Phi).
  eexists. apply Phi_derive; exact H.
Qed.
Lemma dPhi_cont : forall u, -1 < u < 1 -> continuous dPhi u.
Proof.
  intros u H. pose proof (one_minus_sq u H) as P. pose proof (sqrt_lt_R0 _ P) as Q.
  assert (C : continuous (fun u : R => 1 - u ^ 2) u).
  { apply c_minus; [apply c_const|]. apply c_pow2. apply continuous_id. }
  unfold dPhi. apply c_plus.
  - apply c_div.
    + apply asin_cont_in; exact H.
    + apply c_mult; [exact C|apply c_sqrt1].
    + apply Rgt_not_eq. apply Rmult_lt_0_compat; assumption.
  - apply c_div; [apply continuous_id|exact C|lra].
Qed.

Lemma k_sin : forall k t, -1 < k < 1 -> -1 < k * sin t < 1.
Proof.
  intros k t H. pose proof (SIN_bound t) as B.
  assert (L : Rabs (k * sin t) < 1).
  { rewrite Rabs_mult. apply Rle_lt_trans with (Rabs k * 1).
    - apply Rmult_le_compat_l; [apply Rabs_pos|apply Rabs_le; lra].
    - rewrite Rmult_1_r. apply Rabs_def1; lra. }
  apply Rabs_def2 in L. lra.
Qed.

Definition JJ (k : R) : R := RInt (fun t => Phi (k * sin t)) 0 (PI / 2).

Lemma PhiS_cont : forall k t, -1 < k < 1 -> continuous (fun t => Phi (k * sin t)) t.
Proof.
  intros k t H. apply (continuous_comp (fun t => k * sin t) Phi).
  - apply c_scale. apply continuous_sin.
  - apply Phi_cont. apply k_sin; exact H.
Qed.
Lemma PhiS_RInt : forall k, -1 < k < 1 -> forall a b, ex_RInt (fun t => Phi (k * sin t)) a b.
Proof.
  intros k H a b. apply (ex_RInt_continuous (V := R_CompleteNormedModule)). intros t _. apply PhiS_cont; exact H.
Qed.
Lemma PhiS_derive : forall k t, -1 < k < 1 -> is_derive (fun u => Phi (u * sin t)) k (sin t * dPhi (k * sin t)).
Proof.
  intros k t H. apply (is_derive_comp (V := R_NormedModule) Phi (fun u => u * sin t)).
  - apply Phi_derive. apply k_sin; exact H.
  - auto_derive; [trivial|]. ring.
Qed.

Lemma near_unit : forall k, -1 < k < 1 -> exists d : posreal, forall y, Rabs (y - k) < d -> -1 < y < 1.
Proof.
  intros k H. assert (P : 0 < Rmin (1 - k) (k + 1)) by (apply Rmin_glb_lt; lra).
  exists (mkposreal _ P). intros y Hy. simpl in Hy. apply Rabs_def2 in Hy.
  pose proof (Rmin_l (1 - k) (k + 1)). pose proof (Rmin_r (1 - k) (k + 1)). lra.
Qed.
Lemma locally_unit : forall k, -1 < k < 1 -> locally k (fun y : R => -1 < y < 1).
Proof.
  intros k H. destruct (near_unit k H) as [d Hd]. exists d. intros y Hy. apply Hd. exact Hy.
Qed.

Lemma JJ_derive_param : forall k, -1 < k < 1 ->
  is_derive JJ k (RInt (fun t => Derive (fun u => Phi (u * sin t)) k) 0 (PI / 2)).
Proof.
  intros k H. unfold JJ.
  apply (is_derive_RInt_param (fun u t => Phi (u * sin t)) 0 (PI / 2) k).
  - apply (filter_imp (fun y : R => -1 < y < 1)); [|apply locally_unit; exact H].
    intros y Hy t _. eexists. apply PhiS_derive; exact Hy.
  - intros t _. apply (continuity_2d_pt_ext_loc (fun u v => sin v * dPhi (u * sin v))).
    + destruct (near_unit k H) as [d Hd]. exists d. intros u v Hu _. symmetry.
      apply is_derive_unique. apply PhiS_derive. apply Hd; exact Hu.
    + apply continuity_2d_pt_mult.
      * apply (continuity_1d_2d_pt_comp sin (fun _ v => v)); [apply continuity_sin|].
        apply continuity_2d_pt_id2.
      * apply (continuity_1d_2d_pt_comp dPhi (fun u v => u * sin v)).
        { apply continuity_pt_filterlim. apply dPhi_cont. apply k_sin; exact H. }
        apply continuity_2d_pt_mult; [apply continuity_2d_pt_id1|].
        apply (continuity_1d_2d_pt_comp sin (fun _ v => v)); [apply continuity_sin|].
        apply continuity_2d_pt_id2.
  - apply (filter_imp (fun y : R => -1 < y < 1)); [|apply locally_unit; exact H].
    intros y Hy. apply PhiS_RInt; exact Hy.
Qed.

(** The antiderivative in [t] of the derivative in [k]. *)
Lemma JJ_derive_value : forall k, -1 < k < 1 ->
  is_RInt (fun t => sin t * dPhi (k * sin t)) 0 (PI / 2) (k / (1 - k ^ 2) * (PI / 2)).
Proof.
  intros k H. pose proof PI_RGT_0 as P. pose proof (one_minus_sq k H) as Pk.
  pose (g := fun t => sqrt (1 - (k * sin t) ^ 2)).
  pose (h := fun t => asin (k * sin t)).
  pose (G := fun t => - cos t * h t / (g t * (1 - k ^ 2)) + k * t / (1 - k ^ 2)).
  assert (E : k / (1 - k ^ 2) * (PI / 2) = G (PI / 2) - G 0).
  { unfold G. rewrite cos_PI2. unfold h. rewrite sin_0, Rmult_0_r, asin_0.
    unfold Rdiv. ring. }
  rewrite E. change (G (PI / 2) - G 0) with (minus (G (PI / 2)) (G 0)). apply (is_RInt_derive (V := R_CompleteNormedModule) G).
  - intros t _. pose proof (k_sin k t H) as B. pose proof (one_minus_sq _ B) as Pt.
    assert (Dg : is_derive g t (- k ^ 2 * sin t * cos t / g t)).
    { unfold g. evar_last.
      - apply (is_derive_comp sqrt (fun t => 1 - (k * sin t) ^ 2)).
        + apply is_derive_Reals, derivable_pt_lim_sqrt. exact Pt.
        + auto_derive; [trivial|reflexivity].
      - unfold scal; simpl; unfold mult; simpl. pose proof (sqrt_lt_R0 _ Pt) as Q. simpl in Q. field. lra. }
    assert (Dh : is_derive h t (k * cos t / g t)).
    { unfold h, g. evar_last.
      - apply (is_derive_comp asin (fun t => k * sin t)).
        + apply is_derive_asin. exact B.
        + auto_derive; [trivial|reflexivity].
      - unfold scal; simpl; unfold mult; simpl. pose proof (sqrt_lt_R0 _ Pt) as Q. simpl in Q. field. lra. }
    assert (Q : 0 < g t) by (apply sqrt_lt_R0; exact Pt).
    assert (EQ : g t ^ 2 = 1 - (k * sin t) ^ 2) by (unfold g; rewrite pow2_sqrt; [reflexivity|lra]).
    unfold dPhi. change (sqrt (1 - (k * sin t) ^ 2)) with (g t). change (asin (k * sin t)) with (h t).
    pose proof (is_derive_unique g _ _ Dg) as U1. pose proof (is_derive_unique h _ _ Dh) as U2.
    rewrite <- EQ. unfold G. clearbody g h.
    auto_derive.
    + split; [eexists; exact Dh|]. split; [eexists; exact Dg|]. split; [|trivial].
      apply Rgt_not_eq. apply Rmult_lt_0_compat; [exact Q|lra].
    + replace (Derive (fun x0 : R => g x0) t) with (- k ^ 2 * sin t * cos t / g t) by (symmetry; exact U1).
      replace (Derive (fun x0 : R => h x0) t) with (k * cos t / g t) by (symmetry; exact U2).
      assert (EC : cos t ^ 2 = 1 - sin t ^ 2) by (rewrite s2; ring).
      assert (EQ2 : g t ^ 2 = 1 - k ^ 2 * sin t ^ 2) by (rewrite EQ; ring).
      field [EC EQ2]. split; lra.
  - intros t _. apply c_mult; [apply continuous_sin|].
    apply (continuous_comp (fun t => k * sin t) dPhi).
    + apply c_scale. apply continuous_sin.
    + apply dPhi_cont. apply k_sin; exact H.
Qed.

Lemma JJ_derive : forall k, -1 < k < 1 -> is_derive JJ k (k / (1 - k ^ 2) * (PI / 2)).
Proof.
  intros k H. evar_last; [apply JJ_derive_param; exact H|].
  apply is_RInt_unique. apply (is_RInt_ext (fun t => sin t * dPhi (k * sin t))).
  - intros t _. symmetry. apply is_derive_unique. apply PhiS_derive; exact H.
  - apply JJ_derive_value; exact H.
Qed.
Lemma JJ_0 : JJ 0 = 0.
Proof.
  unfold JJ. apply is_RInt_unique. apply (is_RInt_ext (fun _ => 0)); [|apply RInt_zero].
  intros t _. unfold Phi. inR. rewrite Rmult_0_l. unfold Rdiv. ring.
Qed.
Lemma JJ_value : forall k, 0 <= k < 1 -> JJ k = - (PI / 4) * ln (1 - k ^ 2).
Proof.
  intros k H. destruct (Req_dec k 0) as [Z|Z].
  { subst k. rewrite JJ_0. replace (1 - 0 ^ 2) with 1 by ring. rewrite ln_1. ring. }
  assert (E : (fun k => JJ k + PI / 4 * ln (1 - k ^ 2)) 0 = (fun k => JJ k + PI / 4 * ln (1 - k ^ 2)) k).
  { apply (eq_is_derive (V := R_NormedModule) (fun k : R => JJ k + PI / 4 * ln (1 - k ^ 2)) 0 k); [|lra].
    intros t Ht. pose proof (JJ_derive t ltac:(lra)) as D. pose proof (is_derive_unique JJ _ _ D) as U.
    pose proof (one_minus_sq t ltac:(lra)) as P.
    evar_last.
    - auto_derive; [|reflexivity]. split; [eexists; exact D|]. split; [simpl in P; lra|trivial].
    - replace (Derive (fun x0 : R => JJ x0) t) with (t / (1 - t ^ 2) * (PI / 2)) by (symmetry; exact U).
      unfold zero; simpl. field. simpl in P. lra. }
  cbv beta in E. rewrite JJ_0 in E. replace (1 - 0 ^ 2) with 1 in E by ring. rewrite ln_1 in E. lra.
Qed.
