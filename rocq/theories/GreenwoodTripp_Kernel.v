(** * The slope of the function s is the potential of a ring of load *)

From Coq Require Import Reals Lra Lia Psatz.
From Coquelicot Require Import Coquelicot.
From Verif Require Import Py Calc Hertz_Model Westergaard_Proofs Westergaard_Mean Westergaard_Log
  GreenwoodTripp_Model GreenwoodTripp_Elliptic GreenwoodTripp_Spec.
Local Open Scope R_scope.

Lemma sq_lt1 : forall x, -1 < x < 1 -> x ^ 2 < 1.
Proof. intros x H. nra. Qed.

(** ** Inner branch *)
Definition fB (x t : R) : R := x ^ 2 * Bi x t.
Definition iD (x t : R) : R := / sqrt (1 - x ^ 2 * sin t ^ 2).
Definition dfB (x t : R) : R :=
  2 * x * cos t ^ 2 * iD x t + x ^ 3 * (cos t ^ 2 * sin t ^ 2) * (iD x t * iD x t * iD x t).

Lemma D_derive : forall x t, x ^ 2 < 1 ->
  is_derive (fun u => sqrt (1 - u ^ 2 * sin t ^ 2)) x (- x * sin t ^ 2 / sqrt (1 - x ^ 2 * sin t ^ 2)).
Proof.
  intros x t H. pose proof (arg_pos (x ^ 2) t H) as A. pose proof (sqrt_lt_R0 _ A) as Q. evar_last.
  - apply (is_derive_comp sqrt (fun u => 1 - u ^ 2 * sin t ^ 2)).
    + apply is_derive_Reals, derivable_pt_lim_sqrt. exact A.
    + auto_derive; [trivial|reflexivity].
  - unfold scal; simpl; unfold mult; simpl. simpl in Q. field. lra.
Qed.
Lemma fB_derive : forall x t, -1 < x < 1 -> is_derive (fun u => fB u t) x (dfB x t).
Proof.
  intros x t H. pose proof (sq_lt1 x H) as H1. pose proof (arg_pos (x ^ 2) t H1) as A.
  pose proof (sqrt_lt_R0 _ A) as Q.
  pose (g := fun u => sqrt (1 - u ^ 2 * sin t ^ 2)).
  assert (Dg : is_derive g x (- x * sin t ^ 2 / g x)) by (apply D_derive; exact H1).
  assert (Qg : 0 < g x) by exact Q.
  pose proof (is_derive_unique _ _ _ Dg) as U.
  change (is_derive (fun u => u ^ 2 * (cos t ^ 2 / g u)) x
           (2 * x * cos t ^ 2 * / g x + x ^ 3 * (cos t ^ 2 * sin t ^ 2) * (/ g x * / g x * / g x))).
  clearbody g. evar_last.
  - auto_derive; [|reflexivity]. split; [eexists; exact Dg|]. split; [lra|trivial].
  - replace (Derive (fun x0 : R => g x0) x) with (- x * sin t ^ 2 / g x) by (symmetry; exact U). field. lra.
Qed.
Lemma cont2_sin : forall x t, continuity_2d_pt (fun _ v => sin v) x t.
Proof. intros. apply (continuity_1d_2d_pt_comp sin (fun _ v => v)); [apply continuity_sin|apply continuity_2d_pt_id2]. Qed.
Lemma cont2_cos : forall x t, continuity_2d_pt (fun _ v => cos v) x t.
Proof. intros. apply (continuity_1d_2d_pt_comp cos (fun _ v => v)); [apply continuity_cos|apply continuity_2d_pt_id2]. Qed.
Lemma cont2_pow2 : forall f x t, continuity_2d_pt f x t -> continuity_2d_pt (fun u v => f u v ^ 2) x t.
Proof.
  intros f x t H. apply (continuity_2d_pt_ext (fun u v => f u v * f u v)); [intros; ring|].
  apply continuity_2d_pt_mult; exact H.
Qed.
Lemma cont2_isqrt : forall f x t, continuity_2d_pt f x t -> 0 < f x t -> continuity_2d_pt (fun u v => / sqrt (f u v)) x t.
Proof.
  intros f x t H P. apply continuity_2d_pt_inv.
  - apply (continuity_1d_2d_pt_comp sqrt f); [apply continuity_pt_sqrt; lra|exact H].
  - apply Rgt_not_eq. apply sqrt_lt_R0. exact P.
Qed.
Lemma iD_cont2 : forall x t, x ^ 2 < 1 -> continuity_2d_pt iD x t.
Proof.
  intros x t H. unfold iD. apply (cont2_isqrt (fun u v => 1 - u ^ 2 * sin v ^ 2)); [|apply arg_pos; exact H].
  apply continuity_2d_pt_minus; [apply continuity_2d_pt_const|].
  apply continuity_2d_pt_mult; apply cont2_pow2; [apply continuity_2d_pt_id1|apply cont2_sin].
Qed.
Lemma dfB_cont2 : forall x t, x ^ 2 < 1 -> continuity_2d_pt dfB x t.
Proof.
  intros x t H. unfold dfB. pose proof (iD_cont2 x t H) as I. apply continuity_2d_pt_plus.
  - apply continuity_2d_pt_mult; [|exact I]. apply continuity_2d_pt_mult; [|apply cont2_pow2, cont2_cos].
    apply continuity_2d_pt_mult; [apply continuity_2d_pt_const|apply continuity_2d_pt_id1].
  - apply continuity_2d_pt_mult; [|apply continuity_2d_pt_mult; [apply continuity_2d_pt_mult|]; exact I].
    apply continuity_2d_pt_mult.
    + apply (continuity_2d_pt_ext (fun u v => u * (u * u))); [intros; ring|].
      apply continuity_2d_pt_mult; [|apply continuity_2d_pt_mult]; apply continuity_2d_pt_id1.
    + apply continuity_2d_pt_mult; apply cont2_pow2; [apply cont2_cos|apply cont2_sin].
Qed.
Lemma fB_param : forall x, -1 < x < 1 ->
  is_derive (fun u => RInt (fun t => fB u t) 0 (PI / 2)) x (RInt (fun t => Derive (fun u => fB u t) x) 0 (PI / 2)).
Proof.
  intros x H. apply (is_derive_RInt_param fB 0 (PI / 2) x).
  - apply (filter_imp (fun y : R => -1 < y < 1)); [|apply locally_unit; exact H].
    intros y Hy t _. eexists. apply fB_derive; exact Hy.
  - intros t _. apply (continuity_2d_pt_ext_loc dfB).
    + destruct (near_unit x H) as [d Hd]. exists d. intros u v Hu _. symmetry.
      apply is_derive_unique. apply fB_derive. apply Hd; exact Hu.
    + apply dfB_cont2. apply sq_lt1; exact H.
  - apply (filter_imp (fun y : R => -1 < y < 1)); [|apply locally_unit; exact H].
    intros y Hy. eexists. apply B_int. apply sq_lt1; exact Hy.
Qed.

(** The derivative, by partial integration in [t]. *)
Lemma dfB_int : forall x, -1 < x < 1 -> is_RInt (fun t => dfB x t) 0 (PI / 2) (x * ellipk (x ^ 2)).
Proof.
  intros x H. pose proof (sq_lt1 x H) as H1. pose proof PI2_gt0 as P.
  pose (G := fun t => x * (sin t * cos t * iD x t)).
  assert (I1 : is_RInt (fun t => dfB x t - x * iD x t) 0 (PI / 2) 0).
  { replace 0 with (G (PI / 2) - G 0) at 2 by (unfold G; rewrite cos_PI2, sin_0; ring).
    assert (Ci : forall t, continuous (iD x) t) by (intros t; apply inv_sqrt_cont; exact H1).
    apply is_RInt_derive_open; [lra| | |].
    - intros t _. unfold G. apply c_scale. apply c_mult; [|apply Ci].
      apply c_mult; [apply continuous_sin|apply continuous_cos].
    - intros t _. unfold dfB. apply c_minus; [|apply c_scale, Ci]. apply c_plus.
      + apply c_mult; [|apply Ci]. apply c_scale. apply c_pow2, continuous_cos.
      + apply c_mult; [apply c_scale; apply c_mult; apply c_pow2; [apply continuous_cos|apply continuous_sin]|].
        apply c_mult; [apply c_mult|]; apply Ci.
    - intros t _. pose proof (arg_pos (x ^ 2) t H1) as A. pose proof (sqrt_lt_R0 _ A) as Q.
      pose (g := fun t => sqrt (1 - x ^ 2 * sin t ^ 2)).
      assert (Dg : is_derive g t (- x ^ 2 * sin t * cos t / g t)).
      { unfold g. evar_last.
        - apply (is_derive_comp sqrt (fun t => 1 - x ^ 2 * sin t ^ 2)).
          + apply is_derive_Reals, derivable_pt_lim_sqrt. exact A.
          + auto_derive; [trivial|reflexivity].
        - unfold scal; simpl; unfold mult; simpl. simpl in Q. field. lra. }
      assert (Qg : 0 < g t) by exact Q.
      pose proof (is_derive_unique _ _ _ Dg) as U.
      unfold G, dfB, iD.
      change (is_derive (fun t => x * (sin t * cos t * / g t)) t
        (2 * x * cos t ^ 2 * / g t + x ^ 3 * (cos t ^ 2 * sin t ^ 2) * (/ g t * / g t * / g t) - x * / g t)).
      clearbody g. evar_last.
      + auto_derive; [|reflexivity]. split; [eexists; exact Dg|]. split; [lra|trivial].
      + replace (Derive (fun x0 : R => g x0) t) with (- x ^ 2 * sin t * cos t / g t) by (symmetry; exact U).
        assert (ES : sin t ^ 2 = 1 - cos t ^ 2) by (rewrite s2; ring).
        field [ES]. lra. }
  pose proof (RInt_correct (V := R_CompleteNormedModule) _ _ _ (ex_K (x ^ 2) H1)) as HK.
  apply (is_RInt_scal (V := R_NormedModule) _ _ _ x) in HK.
  pose proof (is_RInt_plus (V := R_NormedModule) _ _ _ _ _ _ I1 HK) as S.
  replace (x * ellipk (x ^ 2)) with (0 + x * ellipk (x ^ 2)) by ring.
  apply (is_RInt_ext (V := R_NormedModule)
    (fun t => plus (dfB x t - x * iD x t) (scal x (/ sqrt (1 - x ^ 2 * sin t ^ 2))))); [|exact S].
  intros t _. change (dfB x t - x * iD x t + x * iD x t = dfB x t). ring.
Qed.
Lemma B_derive : forall x, -1 < x < 1 -> is_derive ell_B x (x * ellipk (x ^ 2)).
Proof.
  intros x H. apply (is_derive_ext_loc (fun u => RInt (fun t => fB u t) 0 (PI / 2))).
  - apply (filter_imp (fun y : R => -1 < y < 1)); [|apply locally_unit; exact H].
    intros y Hy. apply is_RInt_unique. apply B_int. apply sq_lt1; exact Hy.
  - evar_last; [apply fB_param; exact H|].
    apply is_RInt_unique. apply (is_RInt_ext (fun t => dfB x t)); [|apply dfB_int; exact H].
    intros t _. symmetry. apply is_derive_unique. apply fB_derive; exact H.
Qed.

(** ** Outer branch *)
Lemma sq_pos : forall x t, 1 < x -> 0 < x ^ 2 - sin t ^ 2.
Proof. intros x t H. pose proof (SIN_bound t). nra. Qed.
Definition dfE (x t : R) : R := x * / sqrt (x ^ 2 - sin t ^ 2).
Lemma fE_derive : forall x t, 1 < x -> is_derive (fun u => sqrt (u ^ 2 - sin t ^ 2)) x (dfE x t).
Proof.
  intros x t H. pose proof (sq_pos x t H) as A. pose proof (sqrt_lt_R0 _ A) as Q. unfold dfE. evar_last.
  - apply (is_derive_comp sqrt (fun u => u ^ 2 - sin t ^ 2)).
    + apply is_derive_Reals, derivable_pt_lim_sqrt. exact A.
    + auto_derive; [trivial|reflexivity].
  - unfold scal; simpl; unfold mult; simpl. simpl in Q. field. lra.
Qed.
Lemma dfE_cont2 : forall x t, 1 < x -> continuity_2d_pt dfE x t.
Proof.
  intros x t H. unfold dfE. apply continuity_2d_pt_mult; [apply continuity_2d_pt_id1|].
  apply (cont2_isqrt (fun u v => u ^ 2 - sin v ^ 2)); [|apply sq_pos; exact H].
  apply continuity_2d_pt_minus; apply cont2_pow2; [apply continuity_2d_pt_id1|apply cont2_sin].
Qed.
Lemma near_gt1 : forall x, 1 < x -> exists d : posreal, forall y, Rabs (y - x) < d -> 1 < y.
Proof.
  intros x H. assert (P : 0 < x - 1) by lra. exists (mkposreal _ P). simpl. intros y Hy. apply Rabs_def2 in Hy. lra.
Qed.
Lemma locally_gt1 : forall x, 1 < x -> locally x (fun y : R => 1 < y).
Proof. intros x H. destruct (near_gt1 x H) as [d Hd]. exists d. intros y Hy. apply Hd. exact Hy. Qed.
Lemma E_derive : forall x, 1 < x -> is_derive (fun u => u * ellipe (1 / u ^ 2)) x (ellipk (1 / x ^ 2)).
Proof.
  intros x H. apply (is_derive_ext_loc (fun u => RInt (fun t => sqrt (u ^ 2 - sin t ^ 2)) 0 (PI / 2))).
  - apply (filter_imp (fun y : R => 1 < y)); [|apply locally_gt1; exact H].
    intros y Hy. apply is_RInt_unique. apply E_int. lra.
  - evar_last.
    + apply (is_derive_RInt_param (fun u t => sqrt (u ^ 2 - sin t ^ 2)) 0 (PI / 2) x).
      * apply (filter_imp (fun y : R => 1 < y)); [|apply locally_gt1; exact H].
        intros y Hy t _. eexists. apply fE_derive; exact Hy.
      * intros t _. apply (continuity_2d_pt_ext_loc dfE); [|apply dfE_cont2; exact H].
        destruct (near_gt1 x H) as [d Hd]. exists d. intros u v Hu _. symmetry.
        apply is_derive_unique. apply fE_derive. apply Hd; exact Hu.
      * apply (filter_imp (fun y : R => 1 < y)); [|apply locally_gt1; exact H].
        intros y Hy. eexists. apply E_int. lra.
    + unfold ellipk. apply RInt_ext. intros t _.
      transitivity (dfE x t); [apply is_derive_unique; apply fE_derive; exact H|].
      unfold dfE. pose proof (sq_pos x t H) as A. 
      replace (1 - 1 / x ^ 2 * sin t ^ 2) with ((x ^ 2 - sin t ^ 2) / x ^ 2) by (field; lra).
      rewrite sqrt_div_alt by nra. rewrite sqrt_pow2 by lra. inR. pose proof (sqrt_lt_R0 _ A) as Q. field. split; [|lra].
      simpl in Q. simpl. lra.
Qed.

(** ** The ring potential, by Gauss' substitution: the angle as seen from the
    point inside of the ring *)
Lemma dist_pos : forall x a, 0 <= x < 1 -> 0 < 1 + x ^ 2 - 2 * x * cos a.
Proof. intros x a H. pose proof (COS_bound a). nra. Qed.
Lemma ring_cont : forall x a, 0 <= x < 1 -> continuous (ring_at x) a.
Proof.
  intros x a H. unfold ring_at. apply (continuous_comp (fun a => sqrt (1 + x ^ 2 - 2 * x * cos a)) Rinv).
  - apply (continuous_sqrt_comp (fun a => 1 + x ^ 2 - 2 * x * cos a)).
    apply c_minus; [apply c_const|]. apply c_scale. apply continuous_cos.
  - apply continuous_Rinv. apply Rgt_not_eq. apply sqrt_lt_R0, dist_pos; exact H.
Qed.

Definition th (x f : R) : R := f - asin (x * sin f).
Definition dth (x f : R) : R := 1 - x * cos f * iD x f.
Lemma x_sin : forall x f, 0 <= x < 1 -> -1 < x * sin f < 1.
Proof. intros x f H. apply k_sin. lra. Qed.
Lemma sq_mul : forall x f, 1 - (x * sin f) ^ 2 = 1 - x ^ 2 * sin f ^ 2.
Proof. intros. ring. Qed.
Lemma th_derive : forall x f, 0 <= x < 1 -> is_derive (th x) f (dth x f).
Proof.
  intros x f H. pose proof (x_sin x f H) as B. pose proof (arg_pos (x ^ 2) f ltac:(nra)) as A.
  pose proof (sqrt_lt_R0 _ A) as Q.
  pose (h := fun f => asin (x * sin f)).
  assert (Dh : is_derive h f (x * cos f * iD x f)).
  { unfold h, iD. rewrite <- sq_mul. evar_last.
    - apply (is_derive_comp asin (fun f => x * sin f)).
      + apply is_derive_asin. exact B.
      + auto_derive; [trivial|reflexivity].
    - rewrite <- sq_mul in Q. unfold scal; simpl; unfold mult; simpl. simpl in Q. field. lra. }
  unfold th, dth. change (is_derive (fun f => f - h f) f (1 - x * cos f * iD x f)).
  apply (is_derive_minus (V := R_NormedModule) (fun f : R => f) h); [apply (is_derive_id (K := R_AbsRing))|exact Dh].
Qed.
Lemma dth_cont : forall x f, 0 <= x < 1 -> continuous (dth x) f.
Proof.
  intros x f H. unfold dth. apply c_minus; [apply c_const|]. apply c_mult.
  - apply c_scale, continuous_cos.
  - apply inv_sqrt_cont. nra.
Qed.
Lemma cos_th : forall x f, 0 <= x < 1 ->
  cos (th x f) = cos f * sqrt (1 - x ^ 2 * sin f ^ 2) + x * sin f ^ 2.
Proof.
  intros x f H. pose proof (x_sin x f H) as B. unfold th. rewrite cos_minus.
  rewrite sin_asin by lra. rewrite cos_asin by lra. unfold Rsqr.
  replace (1 - x * sin f * (x * sin f)) with (1 - x ^ 2 * sin f ^ 2) by ring. ring.
Qed.
Lemma dist_th : forall x f, 0 <= x < 1 ->
  ring_at x (th x f) = / (sqrt (1 - x ^ 2 * sin f ^ 2) - x * cos f) /\ 0 < sqrt (1 - x ^ 2 * sin f ^ 2) - x * cos f.
Proof.
  intros x f H. unfold ring_at. rewrite cos_th by exact H.
  pose proof (arg_pos (x ^ 2) f ltac:(nra)) as A. pose proof (sqrt_lt_R0 _ A) as Q.
  assert (E : sqrt (1 - x ^ 2 * sin f ^ 2) ^ 2 = 1 - x ^ 2 * sin f ^ 2) by (apply pow2_sqrt; lra).
  set (w := sqrt (1 - x ^ 2 * sin f ^ 2)) in *.
  assert (ES : sin f ^ 2 = 1 - cos f ^ 2) by (rewrite s2; ring).
  assert (P : 0 < w - x * cos f).
  { assert ((x * cos f) ^ 2 < w ^ 2) by (rewrite E, ES; nra). nra. }
  split; [|exact P].
  replace (1 + x ^ 2 - 2 * x * (cos f * w + x * sin f ^ 2)) with ((w - x * cos f) ^ 2).
  - rewrite sqrt_pow2 by lra. reflexivity.
  - replace ((w - x * cos f) ^ 2) with (w ^ 2 - 2 * x * cos f * w + x ^ 2 * cos f ^ 2) by ring.
    rewrite E, ES. ring.
Qed.
Lemma K_full : forall m, m < 1 -> is_RInt (fun t => / sqrt (1 - m * sin t ^ 2)) 0 PI (2 * ellipk m).
Proof.
  intros m H. pose (f := fun t => / sqrt (1 - m * sin t ^ 2)).
  pose proof (RInt_correct (V := R_CompleteNormedModule) _ _ _ (ex_K m H)) as HK.
  change (is_RInt f 0 (PI / 2) (ellipk m)) in HK. change (is_RInt f 0 PI (2 * ellipk m)).
  assert (H2 : is_RInt f (PI / 2) PI (ellipk m)).
  { assert (C : is_RInt (fun y => scal (-1) (f (-1 * y + PI))) PI (PI / 2) (ellipk m)).
    { apply (is_RInt_comp_lin (V := R_NormedModule) f (-1) PI PI (PI / 2)).
      replace (-1 * PI + PI) with 0 by ring. replace (-1 * (PI / 2) + PI) with (PI / 2) by field. exact HK. }
    apply (is_RInt_swap (V := R_NormedModule)) in C.
    apply (is_RInt_opp (V := R_NormedModule)) in C. rewrite opp_opp in C.
    apply (is_RInt_ext (V := R_NormedModule) (fun y => opp (scal (-1) (f (-1 * y + PI))))); [|exact C].
    intros t _. change (- (-1 * f (-1 * t + PI)) = f t). unfold f.
    replace (sin (-1 * t + PI)) with (sin t); [ring|].
    replace (-1 * t + PI) with (PI - t) by ring. rewrite sin_PI_x. reflexivity. }
  replace (2 * ellipk m) with (plus (ellipk m) (ellipk m)) by (change (ellipk m + ellipk m = 2 * ellipk m); ring).
  apply (is_RInt_Chasles (V := R_NormedModule) f 0 (PI / 2) PI); assumption.
Qed.
Lemma ring_K : forall x, 0 <= x < 1 -> is_RInt (ring_at x) 0 PI (2 * ellipk (x ^ 2)).
Proof.
  intros x H. pose proof PI_RGT_0 as P.
  assert (C : is_RInt (fun f => scal (dth x f) (ring_at x (th x f))) 0 PI (RInt (ring_at x) (th x 0) (th x PI))).
  { apply (is_RInt_comp (V := R_CompleteNormedModule) (ring_at x) (th x) (dth x)).
    - intros f _. apply ring_cont; exact H.
    - intros f _. split; [apply th_derive|apply dth_cont]; exact H. }
  replace (th x 0) with 0 in C by (unfold th; rewrite sin_0, Rmult_0_r, asin_0; ring).
  replace (th x PI) with PI in C by (unfold th; rewrite sin_PI, Rmult_0_r, asin_0; ring).
  assert (E : RInt (ring_at x) 0 PI = 2 * ellipk (x ^ 2)).
  { rewrite <- (is_RInt_unique (V := R_CompleteNormedModule) _ _ _ _ C).
    apply is_RInt_unique. apply (is_RInt_ext (fun t => / sqrt (1 - x ^ 2 * sin t ^ 2))); [|apply K_full; nra].
    intros f _. destruct (dist_th x f H) as [D Q]. rewrite D. unfold dth, iD.
    pose proof (sqrt_lt_R0 _ (arg_pos (x ^ 2) f ltac:(nra))) as W. 
    change (/ sqrt (1 - x ^ 2 * sin f ^ 2) =
      (1 - x * cos f * / sqrt (1 - x ^ 2 * sin f ^ 2)) * / (sqrt (1 - x ^ 2 * sin f ^ 2) - x * cos f)).
    set (w := sqrt (1 - x ^ 2 * sin f ^ 2)) in *. field. split; lra. }
  rewrite <- E. apply (RInt_correct (V := R_CompleteNormedModule)).
  apply (ex_RInt_continuous (V := R_CompleteNormedModule)). intros a _. apply ring_cont; exact H.
Qed.
Lemma ring_K_out : forall x, 1 < x -> is_RInt (ring_at x) 0 PI (2 / x * ellipk (1 / x ^ 2)).
Proof.
  intros x H. assert (B : 0 <= 1 / x < 1).
  { split; [apply Rdiv_le_0_compat; lra|]. apply (Rmult_lt_reg_r x); [lra|]. unfold Rdiv. rewrite Rmult_assoc, Rinv_l by lra. lra. }
  pose proof (ring_K (1 / x) B) as K. apply (is_RInt_scal (V := R_NormedModule) _ _ _ (1 / x)) in K.
  replace (2 / x * ellipk (1 / x ^ 2)) with (1 / x * (2 * ellipk ((1 / x) ^ 2))).
  2:{ replace ((1 / x) ^ 2) with (1 / x ^ 2) by (field; lra). field. lra. }
  apply (is_RInt_ext (V := R_NormedModule) (fun a => scal (1 / x) (ring_at (1 / x) a))); [|exact K].
  intros a _. change (1 / x * ring_at (1 / x) a = ring_at x a). unfold ring_at.
  pose proof (dist_pos (1 / x) a B) as D. pose proof (sqrt_lt_R0 _ D) as Q.
  replace (1 + x ^ 2 - 2 * x * cos a) with (x ^ 2 * (1 + (1 / x) ^ 2 - 2 * (1 / x) * cos a)) by (field; lra).
  rewrite sqrt_mult_alt by nra. rewrite sqrt_pow2 by lra. simpl in Q. field. simpl. split; [|lra]. lra.
Qed.

(** ** The slope of [s] *)
Lemma s_slope : forall x, s1e5 < x -> x < 10 ^ 5 -> x <> 1 -> is_derive s_fun x (ring_potential x).
Proof.
  intros x H1 H2 H3. pose proof s1e5_val as V. pose proof PI_RGT_0 as P. unfold ring_potential.
  destruct (Rlt_le_dec x 1) as [L|L].
  - rewrite (is_RInt_unique (V := R_CompleteNormedModule) _ _ _ _ (ring_K x ltac:(lra))).
    apply (is_derive_ext_loc (fun u => 2 / PI * ell_B u)).
    + assert (Pd : 0 < Rmin (x - s1e5) (1 - x)) by (apply Rmin_glb_lt; lra).
      exists (mkposreal _ Pd). simpl. intros y Hy. apply Rabs_def2 in Hy.
      pose proof (Rmin_l (x - s1e5) (1 - x)). pose proof (Rmin_r (x - s1e5) (1 - x)).
      unfold minus, plus, opp in Hy; simpl in Hy.
      symmetry. apply s_mid; lra.
    + evar_last; [apply (is_derive_scal ell_B x (2 / PI)); apply B_derive; lra|]. field. lra.
  - rewrite (is_RInt_unique (V := R_CompleteNormedModule) _ _ _ _ (ring_K_out x ltac:(lra))).
    apply (is_derive_ext_loc (fun u => 2 / PI * (u * ellipe (1 / u ^ 2)))).
    + assert (Pd : 0 < Rmin (x - 1) (10 ^ 5 - x)) by (apply Rmin_glb_lt; lra).
      exists (mkposreal _ Pd). simpl. intros y Hy. apply Rabs_def2 in Hy.
      pose proof (Rmin_l (x - 1) (10 ^ 5 - x)). pose proof (Rmin_r (x - 1) (10 ^ 5 - x)).
      unfold minus, plus, opp in Hy; simpl in Hy.
      symmetry. apply s_out; simpl; simpl in *; lra.
    + evar_last; [apply (is_derive_scal (fun u => u * ellipe (1 / u ^ 2)) x (2 / PI)); apply E_derive; lra|].
      field. split; lra.
Qed.

(** ** No jump at 1 *)
Lemma B_one : forall x, 0 < x < 1 -> 1 - PI / 2 * sqrt (1 - x ^ 2) <= ell_B x.
Proof.
  intros x H. assert (H1 : x ^ 2 < 1) by nra. pose proof PI2_gt0 as P.
  pose proof (const_int (sqrt (1 - x ^ 2))) as C. pose proof cos_int1 as C1.
  pose proof (is_RInt_minus (V := R_NormedModule) _ _ _ _ _ _ C1 C) as S.
  change (is_RInt (fun t => cos t - sqrt (1 - x ^ 2)) 0 (PI / 2) (1 - sqrt (1 - x ^ 2) * (PI / 2))) in S.
  rewrite (Rmult_comm (PI / 2)).
  refine (RInt_le' _ _ _ _ _ _ (Rlt_le _ _ P) S (B_int x H1) _).
  intros t Ht. destruct (trig_in t Ht) as [Sn Cn]. unfold Bi.
  pose proof (arg_pos (x ^ 2) t H1) as A. pose proof (sqrt_lt_R0 _ A) as Q.
  assert (E : sqrt (1 - x ^ 2 * sin t ^ 2) ^ 2 = 1 - x ^ 2 * sin t ^ 2) by (apply pow2_sqrt; lra).
  assert (E1 : sqrt (1 - x ^ 2) ^ 2 = 1 - x ^ 2) by (apply pow2_sqrt; lra).
  assert (Q1 : 0 < sqrt (1 - x ^ 2)) by (apply sqrt_lt_R0; lra).
  assert (L : sqrt (1 - x ^ 2) <= sqrt (1 - x ^ 2 * sin t ^ 2)).
  { apply sqrt_le_1; [lra|lra|]. assert (0 <= sin t ^ 2 <= 1) by nra. assert (0 <= x ^ 2) by nra. nra. }
  assert (ES : sin t ^ 2 = 1 - cos t ^ 2) by (rewrite s2; ring).
  set (w := sqrt (1 - x ^ 2 * sin t ^ 2)) in *. set (v := sqrt (1 - x ^ 2)) in *.
  assert (EW : x ^ 2 * cos t ^ 2 = w ^ 2 - v ^ 2) by (rewrite E, E1, ES; ring).
  replace (x ^ 2 * (cos t ^ 2 / w)) with ((w ^ 2 - v ^ 2) / w) by (rewrite <- EW; field; lra).
  apply (Rmult_le_reg_r w); [exact Q|]. unfold Rdiv. rewrite Rmult_assoc, Rinv_l by lra. rewrite Rmult_1_r.
  assert (C3 : cos t <= w).
  { rewrite <- (sqrt_pow2 (cos t)) by lra. unfold w. apply sqrt_le_1; [nra|lra|]. rewrite ES. nra. }
  nra.
Qed.
Lemma E_near_one : forall x, 1 <= x -> x * ellipe (1 / x ^ 2) <= 1 + PI / 2 * sqrt (x ^ 2 - 1).
Proof.
  intros x H. pose proof PI2_gt0 as P.
  pose proof (const_int (sqrt (x ^ 2 - 1))) as C. pose proof cos_int1 as C1.
  pose proof (is_RInt_plus (V := R_NormedModule) _ _ _ _ _ _ C1 C) as S.
  change (is_RInt (fun t => cos t + sqrt (x ^ 2 - 1)) 0 (PI / 2) (1 + sqrt (x ^ 2 - 1) * (PI / 2))) in S.
  rewrite (Rmult_comm (PI / 2)).
  refine (RInt_le' _ _ _ _ _ _ (Rlt_le _ _ P) (E_int x ltac:(lra)) S _).
  intros t Ht. destruct (trig_in t Ht) as [Sn Cn].
  assert (E1 : sqrt (x ^ 2 - 1) ^ 2 = x ^ 2 - 1) by (apply pow2_sqrt; nra).
  pose proof (sqrt_pos (x ^ 2 - 1)) as Q1. set (v := sqrt (x ^ 2 - 1)) in *.
  rewrite <- (sqrt_pow2 (cos t + v)) by lra. 
  assert (ES : sin t ^ 2 = 1 - cos t ^ 2) by (rewrite s2; ring).
  apply sqrt_le_1; [rewrite ES; nra|nra|]. rewrite ES. nra.
Qed.
Lemma s_one : s_fun 1 = 2 / PI.
Proof. rewrite s_out by lra. rewrite E_one. ring. Qed.
Lemma s_near_one : forall x, s1e5 < x < 10 ^ 5 -> Rabs (s_fun x - s_fun 1) <= sqrt (Rabs (x ^ 2 - 1)).
Proof.
  intros x H. pose proof s1e5_val as V. pose proof PI_RGT_0 as P. pose proof q_pos as Q.
  destruct (Rlt_le_dec x 1) as [L|L].
  - pose proof (s_increasing x 1 ltac:(lra) L) as I. rewrite s_one in *. rewrite s_mid in * by lra.
    pose proof (B_one x ltac:(lra)) as B. apply (Rmult_le_compat_l (2 / PI)) in B; [|lra].
    replace (2 / PI * (1 - PI / 2 * sqrt (1 - x ^ 2))) with (2 / PI - sqrt (1 - x ^ 2)) in B by (field; lra).
    rewrite (Rabs_left (x ^ 2 - 1)) by nra. replace (- (x ^ 2 - 1)) with (1 - x ^ 2) by ring.
    rewrite Rabs_left by lra. lra.
  - rewrite (Rabs_right (x ^ 2 - 1)) by nra. rewrite s_one.
    assert (I : 2 / PI <= s_fun x).
    { destruct L as [L|L]; [rewrite <- s_one; left; apply s_increasing; lra|subst x; rewrite s_one; lra]. }
    rewrite s_out in * by lra. 
    pose proof (E_near_one x L) as B. apply (Rmult_le_compat_l (2 / PI)) in B; [|lra].
    replace (2 / PI * (1 + PI / 2 * sqrt (x ^ 2 - 1))) with (2 / PI + sqrt (x ^ 2 - 1)) in B by (field; lra).
    rewrite Rabs_right by lra. lra.
Qed.
Lemma s_cont_one : continuous s_fun 1.
Proof.
  apply continuity_pt_filterlim. intros eps He. pose proof s1e5_val as V.
  assert (C : continuous (fun x => sqrt (Rabs (x ^ 2 - 1))) 1).
  { apply (continuous_sqrt_comp (fun x => Rabs (x ^ 2 - 1))). apply (continuous_comp (fun x => x ^ 2 - 1) Rabs).
    - apply c_minus; [apply c_pow2, continuous_id|apply c_const].
    - apply continuous_Rabs. }
  apply continuity_pt_filterlim in C. destruct (C eps He) as [d [Hd Hc]].
  assert (Pd : 0 < Rmin d (1 - s1e5)) by (apply Rmin_glb_lt; lra).
  exists (Rmin d (1 - s1e5)). split; [exact Pd|]. intros x [Dx Hx]. simpl in Hx. unfold R_dist in Hx.
  pose proof (Rmin_l d (1 - s1e5)) as M1. pose proof (Rmin_r d (1 - s1e5)) as M2.
  assert (X : s1e5 < x < 10 ^ 5) by (apply Rabs_def2 in Hx; lra).
  simpl. unfold R_dist. apply Rle_lt_trans with (1 := s_near_one x X).
  specialize (Hc x (conj Dx (Rlt_le_trans _ _ _ Hx M1))). simpl in Hc. unfold R_dist in Hc.
  replace (1 * (1 * 1) - 1) with 0 in Hc by ring. rewrite Rabs_R0, sqrt_0, Rminus_0_r in Hc.
  simpl. apply Rle_lt_trans with (2 := Hc). apply Rle_abs.
Qed.

(** ** The asymptotic formulas *)
Lemma s_small_error : forall x, 0 <= x < s1e5 -> Rabs (s_fun x - 2 / PI * ell_B x) <= / 10 ^ 10 * s_fun x.
Proof.
  intros x H. pose proof s1e5_val as V. pose proof PI_RGT_0 as P. pose proof q_pos as Q.
  rewrite s_small by lra. assert (H1 : x ^ 2 < 1) by nra.
  pose proof (B_lower x H1) as B. apply (Rmult_le_compat_l (2 / PI)) in B; [|lra].
  replace (2 / PI * (x ^ 2 * (PI / 4))) with (x ^ 2 / 2) in B by (field; lra).
  pose proof (B_near x H1) as N. apply (Rmult_le_compat_l (2 / PI)) in N; [|lra].
  replace (2 / PI * (x ^ 2 * (PI / 4))) with (x ^ 2 / 2) in N by (field; lra).
  rewrite <- Rmult_assoc in N. set (b := 2 / PI * ell_B x) in *.
  assert (Y : x ^ 2 <= / 10 ^ 10).
  { replace (/ 10 ^ 10) with (s1e5 * s1e5) by (unfold s1e5; field). nra. }
  assert (E : sqrt (1 - x ^ 2) ^ 2 = 1 - x ^ 2) by (apply pow2_sqrt; lra).
  pose proof (sqrt_lt_R0 (1 - x ^ 2) ltac:(lra)) as Q1. set (v := sqrt (1 - x ^ 2)) in *.
  assert (T : / 10 ^ 10 < / 2) by (apply Rinv_lt_contravar; lra).
  set (y := x ^ 2) in *. assert (Y0 : 0 <= y) by (unfold y; nra).
  assert (Vb : 1 <= v * (1 + y)).
  { assert (1 <= (v * (1 + y)) ^ 2) by (rewrite Rpow_mult_distr, E; nra). nra. }
  assert (U : b <= y / 2 * (1 + y)).
  { assert (b <= b * (v * (1 + y))) by nra. assert (0 <= 1 + y) by lra. nra. }
  rewrite Rabs_left1 by lra. nra.
Qed.
Lemma s_large_error : forall x, 10 ^ 5 < x -> Rabs (s_fun x - 2 / PI * (x * ellipe (1 / x ^ 2))) <= / 10 ^ 10 * s_fun x.
Proof.
  intros x H. pose proof PI_RGT_0 as P. pose proof q_pos as Q. rewrite s_large by exact H.
  destruct (E_bounds x ltac:(lra)) as [B1 B2].
  apply (Rmult_le_compat_l (2 / PI)) in B1; [|lra]. apply (Rmult_le_compat_l (2 / PI)) in B2; [|lra].
  replace (2 / PI * (sqrt (x ^ 2 - 1) * (PI / 2))) with (sqrt (x ^ 2 - 1)) in B1 by (field; lra).
  replace (2 / PI * (x * (PI / 2))) with x in B2 by (field; lra).
  set (b := 2 / PI * (x * ellipe (1 / x ^ 2))) in *.
  rewrite Rabs_right by lra. apply Rle_trans with (x - sqrt (x ^ 2 - 1)); [lra|].
  assert (E : sqrt (x ^ 2 - 1) ^ 2 = x ^ 2 - 1) by (apply pow2_sqrt; nra).
  pose proof (sqrt_pos (x ^ 2 - 1)) as Q1. set (v := sqrt (x ^ 2 - 1)) in *.
  apply (Rmult_le_reg_r (10 ^ 10)); [lra|].
  replace (/ 10 ^ 10 * x * 10 ^ 10) with x by (field).
  assert (X2 : 10 ^ 10 <= x ^ 2) by (replace (10 ^ 10) with (10 ^ 5 * 10 ^ 5) by ring; nra).
  assert (D : (x - v) * (x + v) = 1) by nra.
  assert (D2 : (x - v) * x <= 1) by nra. assert (0 <= x - v) by nra.
  assert ((x - v) * 10 ^ 10 * x <= x * x); [|nra].
  replace ((x - v) * 10 ^ 10 * x) with ((x - v) * x * 10 ^ 10) by ring. nra.
Qed.
