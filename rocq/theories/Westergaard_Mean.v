(** * Integrals of the Westergaard pressure and gap over a period *)

From Coq Require Import Reals Lra Lia Psatz.
From Coquelicot Require Import Coquelicot.
From Verif Require Import Py Calc Hertz_Disp Westergaard_Model Westergaard_Proofs.
Local Open Scope R_scope.

(** ** Continuity *)
Lemma c_plus : forall (f g : R -> R) x, continuous f x -> continuous g x -> continuous (fun t => f t + g t) x.
Proof. intros. apply (continuous_plus (V := R_NormedModule)); assumption. Qed.
Lemma c_minus : forall (f g : R -> R) x, continuous f x -> continuous g x -> continuous (fun t => f t - g t) x.
Proof. intros. apply (continuous_minus (V := R_NormedModule)); assumption. Qed.
Lemma c_mult : forall (f g : R -> R) x, continuous f x -> continuous g x -> continuous (fun t => f t * g t) x.
Proof. intros. apply (continuous_mult (K := R_AbsRing)); assumption. Qed.
Lemma c_const : forall (c x : R), continuous (fun _ : R => c) x.
Proof. intros. apply continuous_const. Qed.
Lemma c_scale : forall (c : R) (f : R -> R) x, continuous f x -> continuous (fun t => c * f t) x.
Proof. intros c f x H. apply c_mult; [apply c_const|exact H]. Qed.
Lemma c_divc : forall (c : R) (f : R -> R) x, continuous f x -> continuous (fun t => f t / c) x.
Proof. intros c f x H. apply (c_mult f (fun _ => / c)); [exact H|apply c_const]. Qed.
Lemma c_sinpi : forall x, continuous (fun t => sin (PI * t)) x.
Proof.
  intros x. apply (continuous_comp (fun t => PI * t) sin); [|apply continuous_sin].
  apply c_scale. apply continuous_id.
Qed.
Lemma c_cospi : forall x, continuous (fun t => cos (PI * t)) x.
Proof.
  intros x. apply (continuous_comp (fun t => PI * t) cos); [|apply continuous_cos].
  apply c_scale. apply continuous_id.
Qed.
Lemma c_pow2 : forall (f : R -> R) x, continuous f x -> continuous (fun t => f t ^ 2) x.
Proof.
  intros f x H. apply (continuous_ext (fun t => f t * f t)); [intros; simpl; ring|].
  apply c_mult; exact H.
Qed.
Lemma chi_cont : forall a x, continuous (fun t => chi a t) x.
Proof.
  intros a x. unfold chi. apply (continuous_sqrt_comp (fun t => sin (PI * t) ^ 2 - sin (PI * a) ^ 2)).
  apply c_minus; [|apply c_const]. apply c_pow2, c_sinpi.
Qed.
Lemma lnq_cont : forall a x, 0 < a <= 1 / 2 -> 0 < x <= 1 / 2 -> continuous (fun t => lnq a t) x.
Proof.
  intros a x Ha Hx. unfold lnq.
  apply (continuous_comp (fun t => (sin (PI * t) + chi a t) / sin (PI * a)) ln).
  - apply c_divc. apply c_plus; [apply c_sinpi|apply chi_cont].
  - apply continuous_ln. pose proof (sin_pi_pos a Ha). pose proof (sin_pi_pos x Hx). pose proof (chi_ge0 a x).
    apply Rdiv_lt_0_compat; lra.
Qed.
Lemma gapf_cont : forall a x, 0 < a <= 1 / 2 -> 0 < x <= 1 / 2 -> continuous (fun t => gapf a t) x.
Proof.
  intros a x Ha Hx. unfold gapf. apply c_minus.
  - apply c_mult; [apply c_sinpi|apply chi_cont].
  - apply c_scale. apply lnq_cont; assumption.
Qed.
Lemma chi_edge : forall a, chi a a = 0.
Proof. intros a. unfold chi. rewrite Rminus_diag_eq by reflexivity. apply sqrt_0. Qed.
Lemma lnq_edge : forall a, 0 < a <= 1 / 2 -> lnq a a = 0.
Proof.
  intros a Ha. unfold lnq. rewrite chi_edge. pose proof (sin_pi_pos a Ha).
  replace ((sin (PI * a) + 0) / sin (PI * a)) with 1 by (field; lra). apply ln_1.
Qed.
Lemma gapf_edge : forall a, 0 < a <= 1 / 2 -> gapf a a = 0.
Proof. intros a Ha. unfold gapf. rewrite chi_edge, lnq_edge by exact Ha. ring. Qed.

(** ** The gap is positive and increasing outside the contact *)
Lemma gapf_increasing : forall a x y, 0 < a -> a <= x -> x < y -> y <= 1 / 2 -> gapf a x < gapf a y.
Proof.
  intros a x y Ha Hx Hxy Hy.
  apply (derive_pos_lt (fun t => gapf a t) (fun t => 2 * PI * cos (PI * t) * chi a t)); [exact Hxy| | |].
  - intros t Ht. apply gapf_cont; lra.
  - intros t Ht. apply gapf_derive; lra.
  - intros t Ht. pose proof (chi_gt0 a t Ha ltac:(lra) ltac:(lra)). pose proof PI_RGT_0.
    assert (0 < cos (PI * t)) by (apply cos_gt_0; nra).
    apply Rmult_lt_0_compat; [nra|assumption].
Qed.
Lemma gap_pos : forall a x, 0 < a <= 1 / 2 -> a < map_x_on_0_05 x -> 0 < gap1 x a.
Proof.
  intros a x Ha L. rewrite gap_out by lra. destruct (map_x_spec x) as (_ & _ & H).
  rewrite <- (gapf_edge a Ha). apply gapf_increasing; lra.
Qed.

(** ** Integral of an even function over a period *)
Lemma even_RInt : forall (f : R -> R) b v, (forall x, f (- x) = f x) -> is_RInt f 0 b v ->
  is_RInt f (- b) b (2 * v).
Proof.
  intros f b v E H. replace (2 * v) with (plus v v) by (unfold plus; simpl; lra).
  apply (is_RInt_Chasles (V := R_NormedModule) f (- b) 0 b); [|exact H].
  assert (H1 : is_RInt f (- 0) (- - b) v) by (rewrite Ropp_0, Ropp_involutive; exact H).
  apply (is_RInt_comp_opp (V := R_NormedModule)) in H1.
  apply (is_RInt_swap (V := R_NormedModule)) in H1.
  apply (is_RInt_opp (V := R_NormedModule)) in H1.
  apply (is_RInt_ext (V := R_NormedModule) (fun y => opp (opp (f (- y))))).
  { intros x _. rewrite opp_opp. apply E. }
  replace v with (opp (opp v)) at 1 by apply opp_opp. exact H1.
Qed.

Lemma RInt_zero : forall a b, is_RInt (fun _ : R => 0) a b 0.
Proof.
  intros a b. pose proof (is_RInt_const (V := R_NormedModule) a b 0) as H.
  assert (E : scal (b - a) (0 : R_NormedModule) = 0) by (unfold scal; simpl; unfold mult; simpl; inR; ring).
  rewrite E in H. exact H.
Qed.

(** ** The pressure is normalised by its mean value *)
Lemma pressure_half : forall a, 0 < a <= 1 / 2 -> is_RInt (fun x => pressure_psia (PI * a) x) 0 (1 / 2) (1 / 2).
Proof.
  intros a Ha. pose proof PI_RGT_0 as P. pose proof (sin_pi_pos a Ha) as S.
  replace (1 / 2) with (plus (1 / 2) 0) at 2 by (unfold plus; simpl; lra).
  apply (is_RInt_Chasles (V := R_NormedModule) _ 0 a).
  2: { apply (is_RInt_ext (fun _ => 0)).
       - intros x Hx. rewrite Rmin_left, Rmax_right in Hx by lra. symmetry. apply pressure_out; [lra|].
         rewrite map_x_id; lra.
       - apply RInt_zero. }
  set (s := sin (PI * a)) in *.
  set (f := fun x => 2 * cos (PI * x) / s ^ 2 * sqrt (s ^ 2 - sin (PI * x) ^ 2)).
  set (F := fun x => (sin (PI * x) * sqrt (s ^ 2 - sin (PI * x) ^ 2) + s ^ 2 * asin (sin (PI * x) / s)) / (PI * s ^ 2)).
  apply (is_RInt_ext f).
  { intros x Hx. rewrite Rmin_left, Rmax_right in Hx by lra. unfold pressure_psia. cbv zeta.
    rewrite map_x_id by lra. destruct (Rgt_dec _ _) as [G|N]; [reflexivity|].
    exfalso. apply N. apply (proj1 (trig_order a x ltac:(lra) ltac:(lra))). lra. }
  assert (CS : forall x, continuous (fun x => sqrt (s ^ 2 - sin (PI * x) ^ 2)) x).
  { intros x. apply (continuous_sqrt_comp (fun x => s ^ 2 - sin (PI * x) ^ 2)).
    apply c_minus; [apply c_const|]. apply c_pow2, c_sinpi. }
  assert (B : forall x, 0 <= x <= a -> 0 <= sin (PI * x) <= s).
  { intros x Hx. split; [apply sin_ge_0; nra|]. apply sin_incr_1; nra. }
  assert (E : 1 / 2 = F a - F 0).
  { unfold F. fold s. rewrite Rmult_0_r, sin_0. replace (0 / s) with 0 by (field; lra).
    replace (s / s) with 1 by (field; lra). rewrite asin_0, asin_1.
    replace (s ^ 2 - s ^ 2) with 0 by ring. rewrite sqrt_0. field. lra. }
  rewrite E. apply is_RInt_derive_open; [lra| | |].
  - intros x Hx. unfold F. apply c_divc. apply c_plus.
    + apply c_mult; [apply c_sinpi|apply CS].
    + apply c_scale. apply (continuous_comp (fun x => sin (PI * x) / s) asin).
      * apply c_divc, c_sinpi.
      * destruct (B x Hx) as [B1 B2].
        assert (0 <= sin (PI * x) / s) by (apply Rdiv_le_0_compat; lra).
        assert (sin (PI * x) / s <= 1).
        { apply (Rmult_le_reg_r s); [lra|]. unfold Rdiv. rewrite Rmult_assoc, Rinv_l by lra. lra. }
        apply asin_continuous; lra.
  - intros x Hx. unfold f. apply c_mult; [|apply CS]. apply c_divc. apply c_scale. apply c_cospi.
  - intros x Hx.
    assert (L : 0 <= sin (PI * x) < s).
    { split; [apply sin_ge_0; nra|]. apply sin_increasing_1; nra. }
    assert (Q : 0 < s ^ 2 - sin (PI * x) ^ 2) by nra.
    pose proof (sqrt_lt_R0 _ Q) as SQ.
    assert (D1 : is_derive (fun x => sqrt (s ^ 2 - sin (PI * x) ^ 2)) x
                  (- (PI * cos (PI * x) * sin (PI * x)) / sqrt (s ^ 2 - sin (PI * x) ^ 2))).
    { evar_last.
      - apply (is_derive_comp sqrt (fun t => s ^ 2 - sin (PI * t) ^ 2)).
        + apply is_derive_Reals, derivable_pt_lim_sqrt. exact Q.
        + auto_derive; [trivial|reflexivity].
      - unfold scal; simpl; unfold mult; simpl. field. simpl in SQ. lra. }
    assert (E2 : / sqrt (1 - (sin (PI * x) / s) ^ 2) = s / sqrt (s ^ 2 - sin (PI * x) ^ 2)).
    { replace (1 - (sin (PI * x) / s) ^ 2) with ((s ^ 2 - sin (PI * x) ^ 2) / (s ^ 2)) by (field; lra).
      rewrite sqrt_div_alt by nra. rewrite (sqrt_pow2 s) by lra. field. lra. }
    assert (D2 : is_derive (fun x => asin (sin (PI * x) / s)) x (PI * cos (PI * x) / sqrt (s ^ 2 - sin (PI * x) ^ 2))).
    { evar_last.
      - apply (is_derive_comp asin (fun x => sin (PI * x) / s)).
        + apply is_derive_asin. 
          assert (0 <= sin (PI * x) / s) by (apply Rdiv_le_0_compat; lra).
          assert (sin (PI * x) / s < 1).
          { apply (Rmult_lt_reg_r s); [lra|]. unfold Rdiv. rewrite Rmult_assoc, Rinv_l by lra. lra. }
          lra.
        + auto_derive; [trivial|reflexivity].
      - rewrite E2. unfold scal; simpl; unfold mult; simpl. field. simpl in SQ. lra. }
    unfold F, f. pose (g1 := fun x => sqrt (s ^ 2 - sin (PI * x) ^ 2)).
    pose (g2 := fun x => asin (sin (PI * x) / s)).
    assert (EQ : g1 x ^ 2 = s ^ 2 - sin (PI * x) ^ 2) by (unfold g1; rewrite pow2_sqrt; [reflexivity|lra]).
    change (is_derive g1 x (- (PI * cos (PI * x) * sin (PI * x)) / g1 x)) in D1.
    change (is_derive g2 x (PI * cos (PI * x) / g1 x)) in D2.
    change (is_derive (fun x => (sin (PI * x) * g1 x + s ^ 2 * g2 x) / (PI * s ^ 2)) x
              (2 * cos (PI * x) / s ^ 2 * g1 x)).
    change (0 < g1 x) in SQ.
    pose proof (is_derive_unique g1 _ _ D1) as U1. pose proof (is_derive_unique g2 _ _ D2) as U2.
    clearbody g1 g2.
    auto_derive.
    + split; [eexists; exact D1|]. split; [eexists; exact D2|trivial].
    + replace (Derive (fun x0 : R => g1 x0) x) with (- (PI * cos (PI * x) * sin (PI * x)) / g1 x) by (symmetry; exact U1).
      replace (Derive (fun x0 : R => g2 x0) x) with (PI * cos (PI * x) / g1 x) by (symmetry; exact U2).
      field [EQ]. lra.
Qed.
