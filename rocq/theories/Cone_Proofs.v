(** * Proofs about the cone solution *)

From Coq Require Import Reals Lra Lia Psatz.
From Coquelicot Require Import Coquelicot.
From Verif Require Import Py Calc Hertz_Disp Westergaard_Mean Westergaard_Log Cone_Model.
From Coq Require Import List.
Import ListNotations.
Local Open Scope R_scope.

(** ** arccosh *)
Lemma arccosh_1 : arccosh 1 = 0.
Proof. unfold arccosh. replace (1 ^ 2 - 1) with 0 by ring. rewrite sqrt_0, Rplus_0_r. apply ln_1. Qed.
Lemma arccosh_arg : forall y, 1 <= y -> 0 <= y ^ 2 - 1.
Proof. intros y H. nra. Qed.
Lemma arccosh_lt : forall x y, 1 <= x -> x < y -> arccosh x < arccosh y.
Proof.
  intros x y H L. unfold arccosh. pose proof (sqrt_pos (x ^ 2 - 1)).
  assert (sqrt (x ^ 2 - 1) <= sqrt (y ^ 2 - 1)) by (apply sqrt_le_1; nra).
  apply ln_increasing; lra.
Qed.
Lemma arccosh_ge0 : forall y, 1 <= y -> 0 <= arccosh y.
Proof.
  intros y [H|H]; [left; rewrite <- arccosh_1; apply arccosh_lt; lra|subst; rewrite arccosh_1; lra].
Qed.
Lemma ln_le_id : forall y, 0 < y -> ln y <= y.
Proof.
  intros y H. rewrite <- (ln_exp y) at 2. apply Rcomplements.ln_le; [exact H|].
  pose proof (exp_ineq1_le y). lra.
Qed.
Lemma arccosh_bound : forall y, 1 <= y -> arccosh y <= 2 * y.
Proof.
  intros y H. unfold arccosh. pose proof (sqrt_pos (y ^ 2 - 1)).
  assert (sqrt (y ^ 2 - 1) <= y).
  { rewrite <- (sqrt_pow2 y) at 2 by lra. apply sqrt_le_1; nra. }
  apply Rle_trans with (y + sqrt (y ^ 2 - 1)); [apply ln_le_id; lra|lra].
Qed.
Lemma arccosh_cont : forall y, 1 <= y -> continuous arccosh y.
Proof.
  intros y H. unfold arccosh. apply (continuous_comp (fun y => y + sqrt (y ^ 2 - 1)) ln).
  - apply c_plus; [apply continuous_id|]. apply (continuous_sqrt_comp (fun y => y ^ 2 - 1)).
    apply c_minus; [|apply c_const]. apply c_pow2, continuous_id.
  - apply continuous_ln. pose proof (sqrt_pos (y ^ 2 - 1)). lra.
Qed.
Lemma arccosh_derive : forall y, 1 < y -> is_derive arccosh y (/ sqrt (y ^ 2 - 1)).
Proof.
  intros y H. assert (P : 0 < y ^ 2 - 1) by nra. pose proof (sqrt_lt_R0 _ P) as Q.
  pose (g := fun y : R => sqrt (y ^ 2 - 1)).
  assert (Dg : is_derive g y (y / g y)).
  { unfold g. evar_last.
    - apply (is_derive_comp sqrt (fun t => t ^ 2 - 1)).
      + apply is_derive_Reals, derivable_pt_lim_sqrt. exact P.
      + auto_derive; [trivial|reflexivity].
    - unfold scal; simpl; unfold mult; simpl. field. simpl in Q. lra. }
  change (is_derive (fun y => ln (y + g y)) y (/ g y)). change (0 < g y) in Q.
  pose proof (is_derive_unique g _ _ Dg) as U. clearbody g.
  auto_derive.
  - split; [eexists; exact Dg|]. split; [lra|trivial].
  - replace (Derive (fun x0 : R => g x0) y) with (y / g y) by (symmetry; exact U). field. lra.
Qed.

(** ** The contact radius *)
Definition rc (alpha : R) : R := 2 / (PI * tan (PI / 2 - alpha)).
Lemma tan_beta_pos : forall al, 0 < al < PI / 2 -> 0 < tan (PI / 2 - al).
Proof. intros al H. apply tan_gt_0; lra. Qed.
Lemma rc_pos : forall al, 0 < al < PI / 2 -> 0 < rc al.
Proof.
  intros al H. pose proof (tan_beta_pos al H). pose proof PI_RGT_0. unfold rc.
  apply Rdiv_lt_0_compat; [lra|]. apply Rmult_lt_0_compat; lra.
Qed.
Lemma rc_tan : forall al, 0 < al < PI / 2 -> rc al * tan (PI / 2 - al) = 2 / PI.
Proof.
  intros al H. pose proof (tan_beta_pos al H). pose proof PI_RGT_0. unfold rc. field. lra.
Qed.

(** ** Pressure *)
Section Pressure.
  Variable al : R.
  Hypothesis Hal : 0 < al < PI / 2.
  Let c := rc al.

  Lemma ratio_ge1 : forall r, 0 < r -> r <= c -> 1 <= c / r.
  Proof.
    intros r Hr H. apply (Rmult_le_reg_r r); [exact Hr|]. unfold Rdiv. rewrite Rmult_assoc, Rinv_l by lra. lra.
  Qed.
  Lemma ratio_gt1 : forall r, 0 < r -> r < c -> 1 < c / r.
  Proof.
    intros r Hr H. apply (Rmult_lt_reg_r r); [exact Hr|]. unfold Rdiv. rewrite Rmult_assoc, Rinv_l by lra. lra.
  Qed.
  Lemma p_in : forall r, r <= c -> pressure1 al r = arccosh (c / r).
  Proof. intros r H. unfold pressure1. cbv zeta. fold (rc al). fold c. destruct (Rle_dec r c); [reflexivity|lra]. Qed.
  Lemma p_out : forall r, c <= r -> pressure1 al r = 0.
  Proof.
    intros r H. pose proof (rc_pos al Hal). unfold pressure1. cbv zeta. fold (rc al). fold c.
    destruct (Rle_dec r c) as [L|L]; [|reflexivity].
    assert (E : r = c) by lra. rewrite E. replace (c / c) with 1 by (field; unfold c; lra). apply arccosh_1.
  Qed.
  Lemma p_pos : forall r, 0 < r -> r < c -> 0 < pressure1 al r.
  Proof.
    intros r H0 H. rewrite p_in by lra. rewrite <- arccosh_1. apply arccosh_lt; [lra|]. apply ratio_gt1; assumption.
  Qed.
  Lemma p_decr : forall r s, 0 < r -> r < s -> s <= c -> pressure1 al s < pressure1 al r.
  Proof.
    intros r s H0 H1 H2. rewrite !p_in by lra. apply arccosh_lt; [apply ratio_ge1; lra|].
    pose proof (rc_pos al Hal). unfold Rdiv. apply Rmult_lt_compat_l; [unfold c; lra|].
    apply Rinv_lt_contravar; [nra|lra].
  Qed.
  Lemma p_cont_in : forall r, 0 < r -> r <= c -> continuous (fun t => arccosh (c / t)) r.
  Proof.
    intros r H0 H. apply (continuous_comp (fun t => c / t) arccosh).
    - apply c_div; [apply c_const|apply continuous_id|lra].
    - apply arccosh_cont. apply ratio_ge1; assumption.
  Qed.
  Lemma p_cont : forall r, 0 < r -> continuous (pressure1 al) r.
  Proof.
    intros r H0. pose proof (rc_pos al Hal) as Pc. fold c in Pc.
    (* p r = arccosh (c / min r c) *)
    apply (continuous_ext (fun t => arccosh (c / Rmin t c))).
    { intros t. unfold Rmin. destruct (Rle_dec t c) as [L|L].
      - rewrite p_in by exact L. reflexivity.
      - rewrite p_out by lra. replace (c / c) with 1 by (field; lra). symmetry. rewrite arccosh_1. reflexivity. }
    apply (continuous_comp (fun t => Rmin t c) (fun u => arccosh (c / u))).
    - apply (continuous_ext (fun t => (t + c - Rabs (t - c)) / 2)).
      { intros t. unfold Rmin. destruct (Rle_dec t c).
        - rewrite Rabs_left1 by lra. inR. lra.
        - rewrite Rabs_pos_eq by lra. inR. lra. }
      apply c_divc. apply c_minus; [apply c_plus; [apply continuous_id|apply c_const]|].
      apply (continuous_comp (fun t => t - c) Rabs); [|apply continuous_Rabs].
      apply c_minus; [apply continuous_id|apply c_const].
    - apply p_cont_in; [apply Rmin_glb_lt; assumption|apply Rmin_r].
  Qed.
  (** The load: the mean of the pressure over the contact disc is one. *)
  Lemma p_mean : forall e, 0 < e -> e <= c ->
    exists v, is_RInt (fun r => 2 * r * pressure1 al r) e c v /\ c ^ 2 - 3 * c * e <= v <= c ^ 2.
  Proof.
    intros e He Hc. pose proof (rc_pos al Hal) as Pc. fold c in Pc.
    pose (F := fun r => r ^ 2 * arccosh (c / r) - c * sqrt (c ^ 2 - r ^ 2)).
    exists (F c - F e).
    assert (CS : forall x, continuous (fun r => sqrt (c ^ 2 - r ^ 2)) x).
    { intros x. apply (continuous_sqrt_comp (fun r => c ^ 2 - r ^ 2)).
      apply c_minus; [apply c_const|apply c_pow2, continuous_id]. }
    split.
    - apply (is_RInt_ext (fun r => 2 * r * arccosh (c / r))).
      { intros r Hr. rewrite Rmin_left, Rmax_right in Hr by lra. rewrite p_in by lra. reflexivity. }
      apply is_RInt_derive_open; [exact Hc| | |].
      + intros r Hr. unfold F. apply c_minus; [|apply c_scale, CS].
        apply c_mult; [apply c_pow2, continuous_id|apply p_cont_in; lra].
      + intros r Hr. apply c_mult; [apply c_scale, continuous_id|apply p_cont_in; lra].
      + intros r Hr. pose proof (ratio_gt1 r ltac:(lra) ltac:(lra)) as G.
        assert (P : 0 < c ^ 2 - r ^ 2) by nra. pose proof (sqrt_lt_R0 _ P) as Q.
        pose (g := fun r => sqrt (c ^ 2 - r ^ 2)). pose (h := fun r => arccosh (c / r)).
        assert (Dg : is_derive g r (- r / g r)).
        { unfold g. evar_last.
          - apply (is_derive_comp sqrt (fun t => c ^ 2 - t ^ 2)).
            + apply is_derive_Reals, derivable_pt_lim_sqrt. exact P.
            + auto_derive; [trivial|reflexivity].
          - unfold scal; simpl; unfold mult; simpl. field. simpl in Q. lra. }
        assert (Dh : is_derive h r (- c / (r * g r))).
        { unfold h. evar_last.
          - apply (is_derive_comp arccosh (fun t => c / t)); [apply arccosh_derive; exact G|].
            auto_derive; [lra|reflexivity].
          - assert (E : sqrt ((c / r) ^ 2 - 1) = g r / r).
            { unfold g. replace ((c / r) ^ 2 - 1) with ((c ^ 2 - r ^ 2) / r ^ 2) by (field; lra).
              rewrite sqrt_div_alt by nra. rewrite (sqrt_pow2 r) by lra. reflexivity. }
            rewrite E. unfold scal; simpl; unfold mult; simpl. field. unfold g. simpl in Q |- *. lra. }
        change (0 < g r) in Q.
        change (is_derive (fun r => r ^ 2 * h r - c * g r) r (2 * r * h r)).
        pose proof (is_derive_unique g _ _ Dg) as U1. pose proof (is_derive_unique h _ _ Dh) as U2.
        clearbody g h. auto_derive.
        * split; [eexists; exact Dh|]. split; [eexists; exact Dg|trivial].
        * replace (Derive (fun x0 : R => g x0) r) with (- r / g r) by (symmetry; exact U1).
          replace (Derive (fun x0 : R => h x0) r) with (- c / (r * g r)) by (symmetry; exact U2).
          field. lra.
    - unfold F. replace (c / c) with 1 by (field; lra). rewrite arccosh_1.
      replace (c ^ 2 - c ^ 2) with 0 by ring. rewrite sqrt_0.
      assert (A0 : 0 <= arccosh (c / e)) by (apply arccosh_ge0, ratio_ge1; assumption).
      assert (A1 : arccosh (c / e) <= 2 * (c / e)) by (apply arccosh_bound, ratio_ge1; assumption).
      assert (S0 : c - e <= sqrt (c ^ 2 - e ^ 2)).
      { rewrite <- (sqrt_pow2 (c - e)) by lra. apply sqrt_le_1; nra. }
      assert (S1 : sqrt (c ^ 2 - e ^ 2) <= c).
      { rewrite <- (sqrt_pow2 c) at 2 by lra. apply sqrt_le_1; nra. }
      assert (A2 : e ^ 2 * arccosh (c / e) <= 2 * c * e).
      { apply Rle_trans with (e ^ 2 * (2 * (c / e))).
        - apply Rmult_le_compat_l; [nra|exact A1].
        - right. field. lra. }
      assert (A3 : 0 <= e ^ 2 * arccosh (c / e)) by (apply Rmult_le_pos; [nra|exact A0]).
      split; nra.
  Qed.
End Pressure.

(** ** Deformation *)
Definition outer (s : R) : R := asin (1 / s) - s + sqrt (s ^ 2 - 1).
Lemma outer_1 : outer 1 = PI / 2 - 1.
Proof.
  unfold outer. replace (1 / 1) with 1 by field. rewrite asin_1. replace (1 ^ 2 - 1) with 0 by ring.
  rewrite sqrt_0. ring.
Qed.
Lemma outer_cont : forall s, 1 <= s -> continuous outer s.
Proof.
  intros s H. unfold outer. apply c_plus.
  - apply c_minus; [|apply continuous_id].
    apply (continuous_comp (fun s => 1 / s) asin).
    + apply c_div; [apply c_const|apply continuous_id|lra].
    + assert (0 < 1 / s) by (apply Rdiv_lt_0_compat; lra).
      assert (1 / s <= 1). { apply (Rmult_le_reg_r s); [lra|]. unfold Rdiv. rewrite Rmult_assoc, Rinv_l by lra. lra. }
      apply asin_continuous; lra.
  - apply (continuous_sqrt_comp (fun s => s ^ 2 - 1)). apply c_minus; [apply c_pow2, continuous_id|apply c_const].
Qed.
Lemma outer_derive : forall s, 1 < s -> is_derive outer s (sqrt (s ^ 2 - 1) / s - 1).
Proof.
  intros s H. pose proof (inv_range s H) as B. assert (P : 0 < s ^ 2 - 1) by nra. pose proof (sqrt_lt_R0 _ P) as Q.
  pose (g := fun y : R => sqrt (y ^ 2 - 1)). pose (h := fun y => asin (1 / y)).
  assert (Dg : is_derive g s (s / g s)).
  { unfold g. evar_last.
    - apply (is_derive_comp sqrt (fun t => t ^ 2 - 1)).
      + apply is_derive_Reals, derivable_pt_lim_sqrt. exact P.
      + auto_derive; [trivial|reflexivity].
    - unfold scal; simpl; unfold mult; simpl. field. simpl in Q. lra. }
  assert (Dh : is_derive h s (- 1 / (s * g s))).
  { unfold h. evar_last.
    - apply (is_derive_comp asin (fun t => 1 / t)); [apply is_derive_asin; lra|].
      auto_derive; [lra|reflexivity].
    - assert (E : sqrt (1 - (1 / s) ^ 2) = g s / s).
      { unfold g. replace (1 - (1 / s) ^ 2) with ((s ^ 2 - 1) / s ^ 2) by (field; lra).
        rewrite sqrt_div_alt by nra. rewrite (sqrt_pow2 s) by lra. reflexivity. }
      rewrite E. unfold scal; simpl; unfold mult; simpl. field. unfold g. simpl in Q |- *. lra. }
  assert (EQ : g s ^ 2 = s ^ 2 - 1) by (unfold g; rewrite pow2_sqrt; [reflexivity|lra]).
  change (0 < g s) in Q. change (is_derive (fun s => h s - s + g s) s (g s / s - 1)).
  pose proof (is_derive_unique g _ _ Dg) as U1. pose proof (is_derive_unique h _ _ Dh) as U2.
  clearbody g h. auto_derive.
  - split; [eexists; exact Dh|]. split; [eexists; exact Dg|trivial].
  - replace (Derive (fun x0 : R => g x0) s) with (s / g s) by (symmetry; exact U1).
    replace (Derive (fun x0 : R => h x0) s) with (- 1 / (s * g s)) by (symmetry; exact U2).
    field [EQ]. lra.
Qed.
Lemma slope_range : forall s, 1 < s -> 0 < sqrt (s ^ 2 - 1) / s < 1.
Proof.
  intros s H. assert (P : 0 < s ^ 2 - 1) by nra. pose proof (sqrt_lt_R0 _ P) as Q.
  split; [apply Rdiv_lt_0_compat; lra|].
  apply (Rmult_lt_reg_r s); [lra|]. unfold Rdiv. rewrite Rmult_assoc, Rinv_l by lra.
  rewrite Rmult_1_r, Rmult_1_l. rewrite <- (sqrt_pow2 s) at 2 by lra. apply sqrt_lt_1; lra.
Qed.
Lemma outer_decr : forall s t, 1 <= s -> s < t -> outer t < outer s.
Proof.
  intros s t Hs H.
  assert (L : (fun x => - outer x) s < (fun x => - outer x) t).
  { apply (derive_pos_lt (fun x => - outer x) (fun x => 1 - sqrt (x ^ 2 - 1) / x)); [exact H| | |].
    - intros x Hx. apply (continuous_opp (V := R_NormedModule)). apply outer_cont; lra.
    - intros x Hx. evar_last.
      + apply (is_derive_opp (V := R_NormedModule)). apply outer_derive; lra.
      + unfold opp; simpl. ring.
    - intros x Hx. pose proof (slope_range x ltac:(lra)). lra. }
  cbv beta in L. lra.
Qed.
Lemma asin_ge_id : forall y, 0 <= y <= 1 -> y <= asin y.
Proof.
  intros y H. rewrite <- (sin_asin y) at 1 by lra.
  destruct (Rle_dec 0 (asin y)) as [P|N].
  - destruct P as [P|P]; [left; apply sin_lt_x; exact P|rewrite <- P, sin_0; lra].
  - exfalso. pose proof (asin_bound y). assert (sin (asin y) < 0) by (apply sin_lt_0_var; lra).
    rewrite sin_asin in H1 by lra. lra.
Qed.
Lemma outer_pos : forall s, 1 <= s -> 0 < outer s.
Proof.
  intros s [H|H].
  - unfold outer. pose proof (inv_range s H) as B. pose proof (asin_ge_id (1 / s) ltac:(lra)) as A.
    assert (P : 0 < s ^ 2 - 1) by nra. pose proof (sqrt_lt_R0 _ P) as Q.
    assert (E : sqrt (s ^ 2 - 1) * sqrt (s ^ 2 - 1) = s ^ 2 - 1) by (apply sqrt_sqrt; lra).
    set (w := sqrt (s ^ 2 - 1)) in *.
    assert (L : s - w < 1 / s).
    { apply (Rmult_lt_reg_r s); [lra|]. unfold Rdiv. rewrite Rmult_assoc, Rinv_l by lra.
      assert (w < s) by nra. nra. }
    lra.
  - subst s. rewrite outer_1. pose proof PI2_1. lra.
Qed.
(** Outside the contact the surface stays below the extended flank. *)
Lemma outer_flank : forall s, 1 < s -> PI / 2 - s < outer s.
Proof.
  intros s H.
  assert (L : (fun x => outer x + x) 1 < (fun x => outer x + x) s).
  { apply (derive_pos_lt (fun x => outer x + x) (fun x => sqrt (x ^ 2 - 1) / x)); [exact H| | |].
    - intros x Hx. apply c_plus; [apply outer_cont; lra|apply continuous_id].
    - intros x Hx. evar_last.
      + apply (is_derive_plus (V := R_NormedModule) outer (fun x => x)); [apply outer_derive; lra|apply is_derive_id].
      + unfold plus, one; simpl. ring.
    - intros x Hx. apply slope_range; lra. }
  cbv beta in L. rewrite outer_1 in L. lra.
Qed.
