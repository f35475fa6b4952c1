(** * Facts of real calculus used for the reference solutions *)

From Coq Require Import Reals Lra Lia Psatz.
From Coquelicot Require Import Coquelicot.
From Verif Require Import Hertz_Model.
Local Open Scope R_scope.

(** Equations in a Coquelicot structure over [R] as equations in [R]. *)
Ltac inR := match goal with |- @eq _ ?a ?b => change (@eq R a b) end.

(** ** Powers *)

Lemma fpow_pos : forall x y, 0 < x -> fpow x y = Rpower x y.
Proof. intros x y H. unfold fpow. destruct (Req_EM_T x 0); [lra|reflexivity]. Qed.
Lemma fpow_0 : forall y, fpow 0 y = 0.
Proof. intros y. unfold fpow. destruct (Req_EM_T 0 0); [reflexivity|lra]. Qed.
Lemma fpow_ge0 : forall x y, 0 <= fpow x y.
Proof.
  intros x y. unfold fpow. destruct (Req_EM_T x 0); [lra|]. left. apply exp_pos.
Qed.
Lemma fpow_gt0 : forall x y, 0 < x -> 0 < fpow x y.
Proof. intros. rewrite fpow_pos by assumption. apply exp_pos. Qed.

Lemma fpow_third_cube : forall x, 0 <= x -> fpow x (1 / 3) ^ 3 = x.
Proof.
  intros x [H|H].
  - rewrite fpow_pos by assumption. rewrite <- Rpower_pow by apply exp_pos.
    rewrite Rpower_mult. replace (1 / 3 * INR 3) with 1 by (simpl; lra). apply Rpower_1; assumption.
  - subst x. rewrite fpow_0. ring.
Qed.
Lemma cube_inj : forall a b, 0 <= a -> 0 <= b -> a ^ 3 = b ^ 3 -> a = b.
Proof.
  intros a b Ha Hb E.
  assert (F : (a - b) * (a * a + a * b + b * b) = 0) by (ring_simplify; lra).
  apply Rmult_integral in F. destruct F as [F|F]; [lra|].
  assert (a * a = 0 /\ b * b = 0) as [A B] by (split; nra).
  apply Rsqr_0_uniq in A. apply Rsqr_0_uniq in B. lra.
Qed.
Lemma fpow_third_unique : forall x t, 0 <= t -> t ^ 3 = x -> fpow x (1 / 3) = t.
Proof.
  intros x t Ht E. apply cube_inj; [apply fpow_ge0|exact Ht|].
  rewrite fpow_third_cube; [symmetry; exact E|]. rewrite <- E. apply pow_le; exact Ht.
Qed.
Lemma fpow_half_odd : forall x n, 0 <= x -> fpow x (INR n + 1 / 2) = x ^ n * sqrt x.
Proof.
  intros x n [H|H].
  - rewrite fpow_pos by assumption. rewrite Rpower_plus, Rpower_pow by assumption.
    f_equal. replace (1 / 2) with (/ 2) by lra. apply Rpower_sqrt; assumption.
  - subst x. rewrite fpow_0, sqrt_0. ring.
Qed.
Lemma fpow_3_2 : forall x, 0 <= x -> fpow x (3 / 2) = x * sqrt x.
Proof.
  intros x H. replace (3 / 2) with (INR 1 + 1 / 2) by (simpl; lra).
  rewrite fpow_half_odd by assumption. ring.
Qed.
Lemma fpow_5_2 : forall x, 0 <= x -> fpow x (5 / 2) = x ^ 2 * sqrt x.
Proof.
  intros x H. replace (5 / 2) with (INR 2 + 1 / 2) by (simpl; lra).
  apply fpow_half_odd; assumption.
Qed.

Lemma sqrt_eq : forall x t, 0 <= t -> t * t = x -> sqrt x = t.
Proof. intros x t H E. subst x. apply sqrt_square. exact H. Qed.
Lemma sqrt_sq : forall x, 0 <= x -> sqrt x * sqrt x = x.
Proof. exact sqrt_sqrt. Qed.
Lemma sq_inj : forall a b, 0 <= a -> 0 <= b -> a * a = b * b -> a = b.
Proof. intros a b Ha Hb E. apply Rsqr_inj; assumption. Qed.

(** ** Arcus functions *)

Lemma atan_inv_arctan2 : forall x, 0 < x -> atan (1 / x) = arctan2_1 x.
Proof.
  intros x H. unfold arctan2_1. replace (1 / x) with (/ x) by (field; lra). apply atan_inv; exact H.
Qed.
Lemma z_arctan_inv_eq : forall z, 0 <= z -> z_arctan_inv z = z * arctan2_1 z.
Proof.
  intros z [H|H]; unfold z_arctan_inv.
  - rewrite atan_inv_arctan2 by exact H. reflexivity.
  - subst z. ring.
Qed.

Lemma is_derive_asin : forall x, -1 < x < 1 -> is_derive asin x (/ sqrt (1 - x ^ 2)).
Proof.
  intros x H. apply is_derive_Reals.
  pose proof (derive_pt_asin x H) as E. pose proof (proj2_sig (derivable_pt_asin x H)) as L.
  unfold derive_pt in E. rewrite E in L. unfold derivable_pt_abs in L.
  replace (/ sqrt (1 - x ^ 2)) with (1 / sqrt (1 - x²)); [exact L|].
  unfold Rsqr. replace (1 - x ^ 2) with (1 - x * x) by ring.
  unfold Rdiv. ring.
Qed.

Lemma is_derive_arctan2_1 : forall x, is_derive arctan2_1 x (- / (1 + x ^ 2)).
Proof.
  intros x. unfold arctan2_1. auto_derive; [exact I|]. unfold Rsqr.
  replace (1 + x * (x * 1)) with (1 + x ^ 2) by ring. lra.
Qed.

(** ** The fundamental theorem with a derivative inside the interval only *)

Lemma is_RInt_derive_open : forall (F f : R -> R) (a b : R),
  a <= b ->
  (forall x, a <= x <= b -> continuous F x) ->
  (forall x, a <= x <= b -> continuous f x) ->
  (forall x, a < x < b -> is_derive F x (f x)) ->
  is_RInt f a b (F b - F a).
Proof.
  intros F f a b Hab HF Hf HD.
  assert (EX : forall x, a <= x <= b -> ex_RInt f a x).
  { intros x Hx. apply (ex_RInt_continuous (V := R_CompleteNormedModule)). intros y Hy.
    rewrite Rmin_left, Rmax_right in Hy by lra. apply Hf. lra. }
  destruct (Req_dec a b) as [E|E].
  { subst b. replace (F a - F a) with 0 by ring. exact (is_RInt_point (V := R_NormedModule) f a). }
  (* continuous extension of f outside the interval *)
  set (cl := fun x => Rmax a (Rmin b x)).
  assert (Ccl : forall x, continuous cl x).
  { intros x. unfold cl.
    assert (M : forall u v : R, Rmin u v = (u + v - Rabs (u - v)) / 2).
    { intros u v. unfold Rmin. destruct (Rle_dec u v).
      - rewrite Rabs_left1 by lra. lra.
      - rewrite Rabs_pos_eq by lra. lra. }
    assert (M' : forall u v : R, Rmax u v = (u + v + Rabs (u - v)) / 2).
    { intros u v. unfold Rmax. destruct (Rle_dec u v).
      - rewrite Rabs_left1 by lra. lra.
      - rewrite Rabs_pos_eq by lra. lra. }
    assert (A : forall g : R -> R, continuous g x -> continuous (fun y => Rabs (g y)) x).
    { intros g Hg. apply (continuous_comp g Rabs); [exact Hg|]. apply continuous_Rabs. }
    assert (Cm : continuous (fun y => Rmin b y) x).
    { apply (continuous_ext (fun y => (b + y - Rabs (b - y)) / 2)).
      { intros y. rewrite M. reflexivity. }
      apply (continuous_mult (K := R_AbsRing)); [|apply continuous_const].
      apply (continuous_minus (V := R_NormedModule)).
      - apply (continuous_plus (V := R_NormedModule)); [apply continuous_const|apply continuous_id].
      - apply A. apply (continuous_minus (V := R_NormedModule)); [apply continuous_const|apply continuous_id]. }
    apply (continuous_ext (fun y => (a + Rmin b y + Rabs (a - Rmin b y)) / 2)).
    { intros y. rewrite M'. reflexivity. }
    apply (continuous_mult (K := R_AbsRing)); [|apply continuous_const].
    apply (continuous_plus (V := R_NormedModule)).
    - apply (continuous_plus (V := R_NormedModule)); [apply continuous_const|exact Cm].
    - apply A. apply (continuous_minus (V := R_NormedModule)); [apply continuous_const|exact Cm]. }
  assert (Icl : forall x, a <= cl x <= b).
  { intros x. unfold cl. split; [apply Rmax_l|]. apply Rmax_lub; [exact Hab|apply Rmin_l]. }
  assert (Ecl : forall x, a <= x <= b -> cl x = x).
  { intros x Hx. unfold cl. rewrite Rmin_right by lra. apply Rmax_right. lra. }
  set (fe := fun x => f (cl x)).
  assert (Cfe : forall x, continuous fe x).
  { intros x. unfold fe. apply (continuous_comp cl f); [apply Ccl|]. apply Hf. apply Icl. }
  set (G := fun x => RInt fe a x).
  assert (DG : forall x, is_derive G x (fe x)).
  { intros x. unfold G. apply (is_derive_RInt fe G a x).
    - apply filter_forall. intros y. apply (RInt_correct (V := R_CompleteNormedModule) fe a y).
      apply (ex_RInt_continuous (V := R_CompleteNormedModule)). intros w _. apply Cfe.
    - apply Cfe. }
  assert (K : forall x, a <= x <= b -> F x - G x = F a - G a).
  { intros x Hx. destruct (Req_dec x a) as [->|N]; [reflexivity|].
    destruct (MVT_gen (fun y => F y - G y) a x (fun _ => 0)) as [c [_ HC]].
    - intros y Hy. rewrite Rmin_left, Rmax_right in Hy by lra.
      replace 0 with (minus (f y) (fe y)).
      + apply (is_derive_minus F G y); [apply HD; lra|apply DG].
      + unfold fe. rewrite Ecl by lra. unfold minus, plus, opp; simpl. ring.
    - intros y Hy. rewrite Rmin_left, Rmax_right in Hy by lra.
      apply continuity_pt_filterlim.
      apply (continuous_minus (V := R_NormedModule) F G y); [apply HF; lra|].
      apply ex_derive_continuous. eexists. apply DG.
    - lra. }
  pose proof (K b ltac:(lra)) as KB.
  assert (GA : G a = 0) by (unfold G; apply (RInt_point (V := R_CompleteNormedModule))).
  replace (F b - F a) with (G b) by lra.
  apply (is_RInt_ext fe).
  { intros x Hx. rewrite Rmin_left, Rmax_right in Hx by lra. unfold fe. rewrite Ecl by lra. reflexivity. }
  unfold G. apply (RInt_correct (V := R_CompleteNormedModule) fe a b).
  apply (ex_RInt_continuous (V := R_CompleteNormedModule)). intros w _. apply Cfe.
Qed.

(** ** Monotonicity from the sign of the derivative *)

Lemma derive_pos_lt : forall (f df : R -> R) a b, a < b ->
  (forall x, a <= x <= b -> continuous f x) ->
  (forall x, a < x < b -> is_derive f x (df x)) ->
  (forall x, a < x < b -> 0 < df x) -> f a < f b.
Proof.
  intros f df a b Hab HC HD HP.
  assert (D : forall c, a < c < b -> derivable_pt f c).
  { intros c Hc. exists (df c). apply is_derive_Reals. apply HD; exact Hc. }
  destruct (MVT f id a b D (fun c _ => derivable_pt_id c)) as [c [Hc E]].
  - exact Hab.
  - intros c Hc. apply continuity_pt_filterlim. apply HC. exact Hc.
  - intros c Hc. apply derivable_continuous_pt. apply derivable_pt_id.
  - rewrite derive_pt_id in E. unfold id in E.
    assert (Q : derive_pt f c (D c Hc) = df c).
    { apply derive_pt_eq_0. apply is_derive_Reals. apply HD; exact Hc. }
    rewrite Q in E. pose proof (HP c Hc). nra.
Qed.
