(** * Mean displacement and energy of the Westergaard solution *)

From Coq Require Import Reals Lra Lia Psatz.
From Coquelicot Require Import Coquelicot.
From Verif Require Import Py Calc Hertz_Disp Westergaard_Model Westergaard_Proofs Westergaard_Mean Westergaard_Log.
Local Open Scope R_scope.

Section Gap.
  Variable a : R.
  Hypothesis Ha : 0 < a < 1 / 2.
  Let k := cos (PI * a).

  Lemma k_range : 0 < k < 1.
  Proof.
    pose proof PI_RGT_0. unfold k. split; [apply cos_gt_0; nra|].
    rewrite <- cos_0. apply cos_decreasing_1; nra.
  Qed.
  Lemma ck_range : forall x, a <= x <= 1 / 2 -> 0 <= cos (PI * x) / k <= 1.
  Proof.
    intros x Hx. pose proof k_range as K. pose proof PI_RGT_0 as P.
    assert (0 <= cos (PI * x)) by (apply cos_ge_0; nra).
    assert (cos (PI * x) <= k) by (apply cos_decr_1; nra).
    split; [apply Rdiv_le_0_compat; lra|].
    apply (Rmult_le_reg_r k); [lra|]. unfold Rdiv. rewrite Rmult_assoc, Rinv_l by lra. lra.
  Qed.
  Lemma ck_open : forall x, a < x -> x <= 1 / 2 -> cos (PI * x) / k < 1.
  Proof.
    intros x H1 H2. pose proof k_range as K. pose proof PI_RGT_0 as P.
    assert (cos (PI * x) < k) by (apply cos_decreasing_1; nra).
    apply (Rmult_lt_reg_r k); [lra|]. unfold Rdiv. rewrite Rmult_assoc, Rinv_l by lra. lra.
  Qed.

  Definition theta (x : R) : R := asin (cos (PI * x) / k).
  Lemma theta_cont : forall x, a <= x <= 1 / 2 -> continuous theta x.
  Proof.
    intros x Hx. unfold theta. apply (continuous_comp (fun x => cos (PI * x) / k) asin).
    - apply c_divc, c_cospi.
    - pose proof (ck_range x Hx). apply asin_continuous; lra.
  Qed.
  Lemma theta_derive : forall x, a < x -> x <= 1 / 2 -> is_derive theta x (- PI * sin (PI * x) / chi a x).
  Proof.
    intros x H1 H2. pose proof k_range as K. pose proof (ck_range x ltac:(lra)) as B.
    pose proof (ck_open x H1 H2) as Bo. pose proof (chi_gt0 a x ltac:(lra) H1 H2) as Q.
    pose proof (chi_pos a x ltac:(lra) H1 H2) as P.
    assert (E : sqrt (1 - (cos (PI * x) / k) ^ 2) = chi a x / k).
    { replace (1 - (cos (PI * x) / k) ^ 2) with ((sin (PI * x) ^ 2 - sin (PI * a) ^ 2) / k ^ 2).
      - rewrite sqrt_div_alt by nra. rewrite (sqrt_pow2 k) by lra. reflexivity.
      - rewrite !s2. fold k. field. lra. }
    unfold theta. evar_last.
    - apply (is_derive_comp asin (fun x => cos (PI * x) / k)).
      + apply is_derive_asin. lra.
      + auto_derive; [trivial|reflexivity].
    - rewrite E. unfold scal; simpl; unfold mult; simpl. field. lra.
  Qed.

  (** The integral of [sin(pi x) chi]. *)
  Definition Sx (x : R) : R := - (cos (PI * x) * chi a x + k ^ 2 * theta x) / (2 * PI).
  Lemma Sx_int : is_RInt (fun x => sin (PI * x) * chi a x) a (1 / 2) (k ^ 2 / 4).
  Proof.
    pose proof k_range as K. pose proof PI_RGT_0 as P.
    assert (E : k ^ 2 / 4 = Sx (1 / 2) - Sx a).
    { unfold Sx, theta. rewrite chi_edge. replace (PI * (1 / 2)) with (PI / 2) by field. rewrite cos_PI2.
      fold k. replace (k / k) with 1 by (field; lra). replace (0 / k) with 0 by (field; lra).
      rewrite asin_0, asin_1. field. lra. }
    rewrite E. apply is_RInt_derive_open; [lra| | |].
    - intros x Hx. unfold Sx. apply c_divc. apply (continuous_opp (V := R_NormedModule)).
      apply c_plus; [apply c_mult; [apply c_cospi|apply chi_cont]|]. apply c_scale, theta_cont; lra.
    - intros x _. apply c_mult; [apply c_sinpi|apply chi_cont].
    - intros x Hx. pose proof (theta_derive x ltac:(lra) ltac:(lra)) as D.
      pose proof (chi_derive a x ltac:(lra) ltac:(lra) ltac:(lra)) as Dc.
      pose proof (is_derive_unique theta _ _ D) as U. pose proof (is_derive_unique (chi a) _ _ Dc) as Uc.
      pose proof (chi_gt0 a x ltac:(lra) ltac:(lra) ltac:(lra)) as Q.
      unfold Sx. auto_derive.
      + split; [eexists; exact Dc|]. split; [eexists; exact D|trivial].
      + replace (Derive (fun x0 : R => chi a x0) x) with (PI * cos (PI * x) * sin (PI * x) / chi a x) by (symmetry; exact Uc).
        replace (Derive (fun x0 : R => theta x0) x) with (- PI * sin (PI * x) / chi a x) by (symmetry; exact U).
        pose proof (chi_sq a x ltac:(lra) ltac:(lra) ltac:(lra)) as EQ. rewrite !s2 in EQ. fold k in EQ.
        field [EQ]. lra.
  Qed.

  (** The integral of the logarithm. *)
  Definition AA (t : R) : R := RInt (fun u => Phi (k * sin u)) 0 t.
  Lemma AA_derive : forall t, is_derive AA t (Phi (k * sin t)).
  Proof.
    intros t. pose proof k_range as K. unfold AA.
    apply (is_derive_RInt (V := R_NormedModule) (fun u => Phi (k * sin u)) _ 0 t).
    - apply filter_forall. intros y. apply (RInt_correct (V := R_CompleteNormedModule)). apply PhiS_RInt. lra.
    - apply PhiS_cont. lra.
  Qed.
  Lemma AA_cont : forall t, continuous AA t.
  Proof.
    intros t. apply (ex_derive_continuous (K := R_AbsRing) (V := R_NormedModule) AA).
    eexists. apply AA_derive.
  Qed.
  Definition Mx (x : R) : R := (x - 1 / 2) * lnq a x - AA (theta x) / PI.
  Lemma ln_int : is_RInt (fun x => lnq a x) a (1 / 2) (JJ k / PI).
  Proof.
    pose proof k_range as K. pose proof PI_RGT_0 as P.
    assert (A0 : AA 0 = 0) by apply (RInt_point (V := R_CompleteNormedModule)).
    assert (E : JJ k / PI = Mx (1 / 2) - Mx a).
    { unfold Mx, theta. rewrite lnq_edge by lra. replace (PI * (1 / 2)) with (PI / 2) by field. rewrite cos_PI2.
      fold k. replace (k / k) with 1 by (field; lra). replace (0 / k) with 0 by (field; lra).
      rewrite asin_0, asin_1, A0. unfold JJ, AA. unfold Rdiv. ring. }
    rewrite E. apply is_RInt_derive_open; [lra| | |].
    - intros x Hx. unfold Mx. apply c_minus.
      + apply c_mult; [apply c_minus; [apply continuous_id|apply c_const]|apply lnq_cont; lra].
      + apply c_divc. apply (continuous_comp theta AA); [apply theta_cont; lra|apply AA_cont].
    - intros x Hx. apply lnq_cont; lra.
    - intros x Hx. pose proof (theta_derive x ltac:(lra) ltac:(lra)) as D.
      pose proof (lnq_derive a x ltac:(lra) ltac:(lra) ltac:(lra)) as Dl.
      pose proof (chi_gt0 a x ltac:(lra) ltac:(lra) ltac:(lra)) as Q.
      pose proof (sin_pi_pos x ltac:(lra)) as Sp.
      assert (EP : Phi (k * sin (theta x)) = cos (PI * x) * (PI / 2 - PI * x) / sin (PI * x)).
      { unfold theta. pose proof (ck_range x ltac:(lra)). rewrite sin_asin by lra.
        replace (k * (cos (PI * x) / k)) with (cos (PI * x)) by (field; lra).
        unfold Phi. rewrite <- s2. rewrite (sqrt_pow2 (sin (PI * x))) by lra.
        rewrite <- sin_shift. rewrite asin_sin by (split; nra). reflexivity. }
      assert (Da : is_derive (fun x => AA (theta x)) x (- PI * sin (PI * x) / chi a x * (cos (PI * x) * (PI / 2 - PI * x) / sin (PI * x)))).
      { evar_last.
        - apply (is_derive_comp (V := R_NormedModule) AA theta); [apply AA_derive|exact D].
        - rewrite EP. reflexivity. }
      pose (B := fun x => AA (theta x)).
      change (is_derive B x (- PI * sin (PI * x) / chi a x * (cos (PI * x) * (PI / 2 - PI * x) / sin (PI * x)))) in Da.
      pose proof (is_derive_unique B _ _ Da) as U. pose proof (is_derive_unique (lnq a) _ _ Dl) as Ul.
      change (is_derive (fun x => (x - 1 / 2) * lnq a x - B x / PI) x (lnq a x)). clearbody B.
      auto_derive.
      + split; [eexists; exact Dl|]. split; [eexists; exact Da|trivial].
      + replace (Derive (fun x0 : R => lnq a x0) x) with (PI * cos (PI * x) / chi a x) by (symmetry; exact Ul).
        replace (Derive (fun x0 : R => B x0) x) with (- PI * sin (PI * x) / chi a x * (cos (PI * x) * (PI / 2 - PI * x) / sin (PI * x))) by (symmetry; exact U).
        field. lra.
  Qed.
  Lemma ln_int_value : JJ k / PI = - ln (sin (PI * a)) / 2.
  Proof.
    pose proof k_range as K. pose proof PI_RGT_0 as P. pose proof (sin_pi_pos a ltac:(lra)) as S.
    rewrite JJ_value by lra. unfold k. rewrite <- s2.
    replace (sin (PI * a) ^ 2) with (sin (PI * a) * sin (PI * a)) by ring.
    rewrite ln_mult by exact S. field. lra.
  Qed.
  Lemma gapf_int : is_RInt (fun x => gapf a x) a (1 / 2) (k ^ 2 / 4 + sin (PI * a) ^ 2 * ln (sin (PI * a)) / 2).
  Proof.
    pose proof Sx_int as H1. pose proof ln_int as H2. rewrite ln_int_value in H2.
    apply (is_RInt_scal (V := R_NormedModule) _ _ _ (sin (PI * a) ^ 2)) in H2.
    pose proof (is_RInt_minus (V := R_NormedModule) _ _ _ _ _ _ H1 H2) as H.
    replace (k ^ 2 / 4 + sin (PI * a) ^ 2 * ln (sin (PI * a)) / 2)
      with (minus (k ^ 2 / 4) (scal (sin (PI * a) ^ 2) (- ln (sin (PI * a)) / 2))); [exact H|].
    change (k ^ 2 / 4 - sin (PI * a) ^ 2 * (- ln (sin (PI * a)) / 2) = k ^ 2 / 4 + sin (PI * a) ^ 2 * ln (sin (PI * a)) / 2).
    field.
  Qed.
End Gap.

(** ** The mean of the gap and of the displacement over a period *)
Lemma gap_half : forall a, 0 < a <= 1 / 2 ->
  is_RInt (fun x => gap1 x a) 0 (1 / 2) (cos (PI * a) ^ 2 / 4 + sin (PI * a) ^ 2 * ln (sin (PI * a)) / 2).
Proof.
  intros a Ha.
  replace (cos (PI * a) ^ 2 / 4 + sin (PI * a) ^ 2 * ln (sin (PI * a)) / 2)
    with (plus 0 (cos (PI * a) ^ 2 / 4 + sin (PI * a) ^ 2 * ln (sin (PI * a)) / 2)) by apply Rplus_0_l.
  apply (is_RInt_Chasles (V := R_NormedModule) _ 0 a).
  - apply (is_RInt_ext (fun _ => 0)); [|apply RInt_zero].
    intros x Hx. rewrite Rmin_left, Rmax_right in Hx by lra. symmetry. apply gap_in. rewrite map_x_id; lra.
  - destruct (Req_dec a (1 / 2)) as [E|N].
    + subst a. replace (PI * (1 / 2)) with (PI / 2) by field. rewrite cos_PI2, sin_PI2, ln_1.
      replace (0 ^ 2 / 4 + 1 ^ 2 * 0 / 2) with 0 by field.
      exact (is_RInt_point (V := R_NormedModule) _ (1 / 2)).
    + apply (is_RInt_ext (fun x => gapf a x)); [|apply gapf_int; lra].
      intros x Hx. rewrite Rmin_left, Rmax_right in Hx by lra.
      rewrite gap_out by (rewrite ?map_x_id; lra). rewrite map_x_id by lra. reflexivity.
Qed.
Lemma sin2_half : is_RInt (fun x => sin (PI * x) ^ 2) 0 (1 / 2) (1 / 4).
Proof.
  pose proof PI_RGT_0 as P.
  pose (F := fun x => (PI * x - sin (PI * x) * cos (PI * x)) / (2 * PI)).
  replace (1 / 4) with (F (1 / 2) - F 0).
  - apply is_RInt_derive_open; [lra| | |].
    + intros x _. unfold F. apply c_divc. apply c_minus; [apply c_scale; apply continuous_id|].
      apply c_mult; [apply c_sinpi|apply c_cospi].
    + intros x _. apply c_pow2, c_sinpi.
    + intros x _. unfold F. auto_derive; [trivial|].
      assert (EC : cos (PI * x) ^ 2 = 1 - sin (PI * x) ^ 2) by (rewrite s2; ring).
      field [EC]. lra.
  - unfold F. replace (PI * (1 / 2)) with (PI / 2) by field. rewrite cos_PI2, (Rmult_0_r PI), sin_0. field. lra.
Qed.

Lemma gap1_even : forall a x, gap1 (- x) a = gap1 x a.
Proof.
  intros a x. unfold gap1, displacement1. rewrite map_x_even.
  replace (PI * - x) with (- (PI * x)) by ring. rewrite sin_neg. ring.
Qed.
Lemma disp_half : forall a, 0 < a <= 1 / 2 -> is_RInt (fun x => displacement1 x a) 0 (1 / 2) (mean_displacement a / 2).
Proof.
  intros a Ha. pose proof (gap_half a Ha) as H1. pose proof sin2_half as H2.
  pose proof (is_RInt_minus (V := R_NormedModule) _ _ _ _ _ _ H1 H2) as H.
  replace (mean_displacement a / 2)
    with (minus (cos (PI * a) ^ 2 / 4 + sin (PI * a) ^ 2 * ln (sin (PI * a)) / 2) (1 / 4)).
  - apply (is_RInt_ext (V := R_NormedModule) (fun x => minus (gap1 x a) (sin (PI * x) ^ 2))); [|exact H].
    intros x _. unfold gap1. change (sin (PI * x) ^ 2 + displacement1 x a - sin (PI * x) ^ 2 = displacement1 x a). ring.
  - unfold mean_displacement.
    change (cos (PI * a) ^ 2 / 4 + sin (PI * a) ^ 2 * ln (sin (PI * a)) / 2 - 1 / 4 =
      (- 1 / 2 + 1 / 2 * cos (PI * a) ^ 2 + sin (PI * a) ^ 2 * ln (sin (PI * a))) / 2). field.
Qed.

(** ** Energy *)
Lemma energy_of_radius : forall a, elastic_energy (mean_pressure a) = Ret (elastic_energy_a a).
Proof.
  intros a. unfold elastic_energy. destruct (Rle_dec _ _) as [_|N]; [|exfalso; apply N, mp_range].
  unfold elastic_energy_a, mean_pressure. f_equal. ring.
Qed.
Lemma energy_derive_a : forall a, 0 < a < 1 / 2 ->
  exists dE dD : R, is_derive elastic_energy_a a dE /\ is_derive mean_displacement a dD
    /\ dE = - 2 * mean_pressure a * dD /\ 0 < dE /\ dD < 0.
Proof.
  intros a Ha. pose proof (sin_pi_pos a ltac:(lra)) as S. pose proof PI_RGT_0 as P.
  pose proof (k_range a Ha) as K. cbv zeta in K.
  assert (L : ln (sin (PI * a)) < 0).
  { rewrite <- ln_1. apply ln_increasing; [exact S|]. pose proof (s2 (PI * a)). nra. }
  exists (- 4 * PI * ln (sin (PI * a)) * sin (PI * a) ^ 3 * cos (PI * a)),
         (2 * PI * ln (sin (PI * a)) * sin (PI * a) * cos (PI * a)).
  assert (Q : 0 < PI * (- ln (sin (PI * a))) * sin (PI * a) * cos (PI * a)).
  { apply Rmult_lt_0_compat; [|lra]. apply Rmult_lt_0_compat; [|lra]. apply Rmult_lt_0_compat; lra. }
  split; [|split; [|split; [|split]]].
  - unfold elastic_energy_a. auto_derive.
    + nra.
    + assert (E : ln (sin (PI * a) * (sin (PI * a) * 1)) = 2 * ln (sin (PI * a))).
      { rewrite Rmult_1_r, ln_mult by exact S. ring. }
      rewrite E. field. lra.
  - unfold mean_displacement. auto_derive; [exact S|]. field. lra.
  - unfold mean_pressure. ring.
  - assert (0 < sin (PI * a) ^ 2) by nra.
    replace (- 4 * PI * ln (sin (PI * a)) * sin (PI * a) ^ 3 * cos (PI * a))
      with (4 * (PI * (- ln (sin (PI * a))) * sin (PI * a) * cos (PI * a)) * sin (PI * a) ^ 2) by ring.
    apply Rmult_lt_0_compat; lra.
  - lra.
Qed.

(** ** Integrals of a periodic function do not depend on the start of the period *)
Lemma shift_RInt : forall (f : R -> R) c a b v, is_RInt (fun y => f (y + c)) a b v -> is_RInt f (a + c) (b + c) v.
Proof.
  intros f c a b v H.
  assert (H' : is_RInt (fun y => f (y + c)) (1 * (a + c) + - c) (1 * (b + c) + - c) v).
  { replace (1 * (a + c) + - c) with a by ring. replace (1 * (b + c) + - c) with b by ring. exact H. }
  apply (is_RInt_comp_lin (V := R_NormedModule)) in H'.
  apply (is_RInt_ext (V := R_NormedModule) (fun y => scal 1 (f (1 * y + - c + c)))); [|exact H'].
  intros x _. change (1 * f (1 * x + - c + c) = f x). rewrite Rmult_1_l. f_equal. ring.
Qed.
Lemma period_RInt : forall (f : R -> R) v, (forall x (n : Z), f (x + IZR n) = f x) ->
  is_RInt f (- (1 / 2)) (1 / 2) v -> forall t, is_RInt f t (t + 1) v.
Proof.
  intros f v Per H t.
  destruct (frac_part_split (t + 1 / 2)) as (n & E & B). set (s := frac_part (t + 1 / 2) - 1 / 2).
  replace t with (s + IZR n) by (unfold s; lra). replace (s + IZR n + 1) with ((s + 1) + IZR n) by ring.
  apply shift_RInt. apply (is_RInt_ext f); [intros x _; symmetry; apply Per|].
  assert (X : ex_RInt f (- (1 / 2)) (1 / 2)) by (exists v; exact H).
  assert (S : - (1 / 2) <= s <= 1 / 2) by (unfold s; lra).
  pose proof (ex_RInt_Chasles_1 (V := R_CompleteNormedModule) f _ _ _ S X) as X1.
  pose proof (ex_RInt_Chasles_2 (V := R_CompleteNormedModule) f _ _ _ S X) as X2.
  destruct X1 as [v1 H1]. destruct X2 as [v2 H2].
  assert (EV : v = plus v2 v1).
  { pose proof (is_RInt_Chasles (V := R_NormedModule) f _ _ _ _ _ H1 H2) as H12.
    apply (is_RInt_unique (V := R_CompleteNormedModule)) in H.
    apply (is_RInt_unique (V := R_CompleteNormedModule)) in H12. rewrite H in H12. rewrite H12. apply plus_comm. }
  rewrite EV. apply (is_RInt_Chasles (V := R_NormedModule) f s (1 / 2) (s + 1)); [exact H2|].
  replace (1 / 2) with (- (1 / 2) + 1) by lra. apply shift_RInt.
  apply (is_RInt_ext f); [|exact H1]. intros x _. symmetry. apply (Per x 1%Z).
Qed.

(** ** Contact region *)
Lemma fold_lt : forall a x, a <= 1 / 2 -> (map_x_on_0_05 x < a <-> exists n : Z, Rabs (x - IZR n) < a).
Proof.
  intros a x Ha. split.
  - intros L. destruct (map_x_spec x) as (n & E & H). exists n.
    apply Rabs_def1; destruct E; lra.
  - intros [n L]. apply Rabs_def2 in L.
    destruct (Rle_dec 0 (x - IZR n)) as [S|S].
    + rewrite (map_x_of x n (x - IZR n)) by lra. lra.
    + rewrite (map_x_of x n (IZR n - x)) by lra. lra.
Qed.
Lemma fold_le : forall a x, a <= 1 / 2 -> (map_x_on_0_05 x <= a <-> exists n : Z, Rabs (x - IZR n) <= a).
Proof.
  intros a x Ha. split.
  - intros L. destruct (map_x_spec x) as (n & E & H). exists n.
    apply Rabs_le; destruct E; lra.
  - intros [n L].
    destruct (Rle_dec 0 (x - IZR n)) as [S|S].
    + rewrite Rabs_pos_eq in L by lra. rewrite (map_x_of x n (x - IZR n)) by lra. lra.
    + rewrite Rabs_left in L by lra. rewrite (map_x_of x n (IZR n - x)) by lra. lra.
Qed.
Lemma disp_even : forall a x, displacement1 (- x) a = displacement1 x a.
Proof. intros a x. unfold displacement1. rewrite map_x_even. reflexivity. Qed.
Lemma disp_period : forall a x (n : Z), displacement1 (x + IZR n) a = displacement1 x a.
Proof. intros a x n. unfold displacement1. rewrite map_x_period. reflexivity. Qed.
Lemma gap_period : forall a x (n : Z), gap1 (x + IZR n) a = gap1 x a.
Proof. intros a x n. unfold gap1. rewrite disp_period, sin2_shift. reflexivity. Qed.
Lemma pressure_even : forall p x, pressure_psia p (- x) = pressure_psia p x.
Proof. intros. unfold pressure_psia. rewrite map_x_even. reflexivity. Qed.
Lemma pressure_period : forall p x (n : Z), pressure_psia p (x + IZR n) = pressure_psia p x.
Proof. intros. unfold pressure_psia. rewrite map_x_period. reflexivity. Qed.

Lemma disp_mean : forall a t, 0 < a <= 1 / 2 -> is_RInt (fun x => displacement1 x a) t (t + 1) (mean_displacement a).
Proof.
  intros a t Ha. apply period_RInt; [intros; apply disp_period|].
  replace (mean_displacement a) with (2 * (mean_displacement a / 2)) by field.
  apply even_RInt; [intros; apply disp_even|]. apply disp_half; exact Ha.
Qed.
Lemma gap_mean : forall a t, 0 < a <= 1 / 2 -> is_RInt (fun x => gap1 x a) t (t + 1) (1 / 2 + mean_displacement a).
Proof.
  intros a t Ha. apply period_RInt; [intros; apply gap_period|].
  replace (1 / 2 + mean_displacement a)
    with (2 * (cos (PI * a) ^ 2 / 4 + sin (PI * a) ^ 2 * ln (sin (PI * a)) / 2))
    by (unfold mean_displacement; field).
  apply even_RInt; [intros; apply gap1_even|]. apply gap_half; exact Ha.
Qed.
Lemma pressure_mean : forall a t, 0 < a <= 1 / 2 -> is_RInt (fun x => pressure_psia (PI * a) x) t (t + 1) 1.
Proof.
  intros a t Ha. apply period_RInt; [intros; apply pressure_period|].
  replace 1 with (2 * (1 / 2)) at 3 by field.
  apply even_RInt; [intros; apply pressure_even|]. apply pressure_half; exact Ha.
Qed.

(** ** The two ways of passing the load *)
Lemma pressure_by_mean : forall a x, 0 <= a <= 1 / 2 ->
  pressure1 x None (Some (PI * mean_pressure a)) = pressure1 x (Some a) None.
Proof.
  intros a x Ha. unfold pressure1. do 2 f_equal. pose proof PI_RGT_0.
  replace (PI * mean_pressure a / PI) with (mean_pressure a) by (field; lra).
  unfold mean_pressure. rewrite sqrt_pow2 by (apply sin_ge_0; nra). apply asin_sin. split; nra.
Qed.
