(** * The arithmetic of doubles

    The values are the valid numbers of the 64 bit format; the operations are
    those of Coq's [SpecFloat].  The laws of Float_Spec.v carry over from
    Float_IEEE.v; the rounding of Float_Round_Spec.v is proved with the Flocq
    library, which adds no axiom to those of the real numbers. *)
From Coq Require Import Reals List Bool ZArith Lia Lra Permutation Eqdep_dec.
From Coq Require Import Floats.SpecFloat.
From Flocq Require Import Core BinarySingleNaN Relative Plus_error Div_sqrt_error.
From Verif Require Import Float_Model Float_Spec Float_IEEE Float_Round_Spec.
From Coq Require Import List.
Import ListNotations.
Local Open Scope R_scope.

(** A double; what is no valid number is replaced by nan (it does not occur). *)
Definition D64 : Set := { x : spec_float | SpecFloat.valid_binary 53 1024 x = true }.
Definition raw (x : D64) : spec_float := proj1_sig x.
Definition mk64 (x : spec_float) : D64 :=
  match bool_dec (SpecFloat.valid_binary 53 1024 x) true with
  | left H => exist _ x H
  | right _ => exist _ S754_nan eq_refl
  end.
(** The real number; zero for nan and infinities. *)
Definition num64 (x : spec_float) : R :=
  match x with
  | S754_finite s m e => (if s then - IZR (Z.pos m) else IZR (Z.pos m)) * powerRZ 2 e
  | _ => 0
  end.
Definition val64 (x : D64) : R := num64 (raw x).
Definition finD (x : D64) : Prop := fin64 (raw x).
Definition dbl (m e : Z) : D64 := mk64 (f64_of m e).

Definition bin64 (op : spec_float -> spec_float -> spec_float) (x y : D64) : D64 := mk64 (op (raw x) (raw y)).
Definition AD : Arith D64 :=
  mkArith D64 (mk64 (S754_zero false)) (dbl 1 0) (mk64 (SFdiv 53 1024 (f64_of 1 0) (f64_of 100 0)))
    (bin64 (SFadd 53 1024)) (bin64 (SFsub 53 1024)) (bin64 (SFmul 53 1024)) (bin64 (SFdiv 53 1024))
    (fun x => mk64 (SFopp (raw x))) (fun x => mk64 (SFabs (raw x))) (fun x => mk64 (SFsqrt 53 1024 (raw x)))
    (fun x y => SFltb (raw x) (raw y)) (fun x y => SFleb (raw x) (raw y)) (fun x y => SFeqb (raw x) (raw y))
    (fun n => dbl (Z.of_nat n) 0)
    (fold_right (bin64 (SFadd 53 1024)) (mk64 (S754_zero false)))
    (fold_right (bin64 max64) (mk64 (S754_infinity true)))
    (fold_right (bin64 min64) (mk64 (S754_infinity false))).

(** ** Validity *)
Local Notation valid x := (SpecFloat.valid_binary 53 1024 x = true).
Lemma mk_raw : forall x, valid x -> raw (mk64 x) = x.
Proof. intros x H. unfold mk64. destruct (bool_dec _ true); [reflexivity|contradiction]. Qed.
Lemma raw_valid : forall x, valid (raw x).
Proof. intros [x H]. exact H. Qed.
Lemma raw_inj : forall x y, raw x = raw y -> x = y.
Proof.
  intros [x H] [y H'] E. cbn in E. subst y. f_equal. apply UIP_dec. apply bool_dec.
Qed.
Lemma mk_of_raw : forall x, mk64 (raw x) = x.
Proof. intro x. apply raw_inj, mk_raw, raw_valid. Qed.

#[local] Instance HP : Prec_gt_0 53 := eq_refl.
#[local] Instance HM : Prec_lt_emax 53 1024 := eq_refl.
Local Notation B := (binary_float 53 1024).
Local Notation bin := (B2SF (prec:=53) (emax:=1024)).

Lemma nearest_equiv : forall s m l, round_nearest_even m l = choice_mode mode_NE s m l.
Proof. intros s m [|[]]; try reflexivity. cbn. unfold Round.cond_incr. destruct (Z.even m); reflexivity. Qed.
Lemma aux_equiv : forall s m e l,
  SpecFloat.binary_round_aux 53 1024 s m e l = BinarySingleNaN.binary_round_aux 53 1024 mode_NE s m e l.
Proof.
  intros s m e l. unfold SpecFloat.binary_round_aux, BinarySingleNaN.binary_round_aux.
  destruct (shr_fexp 53 1024 m e l) as [r e']. rewrite (nearest_equiv s). reflexivity.
Qed.
Lemma round_equiv : forall s m e,
  SpecFloat.binary_round 53 1024 s m e = BinarySingleNaN.binary_round 53 1024 mode_NE s m e.
Proof.
  intros s m e. unfold SpecFloat.binary_round, BinarySingleNaN.binary_round, shl_align_fexp.
  destruct (shl_align _ _ _) as [mz ez]. apply aux_equiv.
Qed.
Lemma norm_equiv : forall m e z,
  SpecFloat.binary_normalize 53 1024 m e z = bin (BinarySingleNaN.binary_normalize 53 1024 HP HM mode_NE m e z).
Proof. intros [|p|p] e z; cbn; [reflexivity| |]; rewrite B2SF_SF2B; apply round_equiv. Qed.
Lemma add_equiv : forall x y : B, SFadd 53 1024 (bin x) (bin y) = bin (Bplus mode_NE x y).
Proof.
  intros [sx|sx| |sx mx ex Bx] [sy|sy| |sy my ey By]; cbn [SFadd B2SF Bplus]; try reflexivity;
    try (destruct (Bool.eqb sx sy); reflexivity).
  apply norm_equiv.
Qed.
Lemma sub_equiv : forall x y : B, SFsub 53 1024 (bin x) (bin y) = bin (Bminus mode_NE x y).
Proof.
  intros [sx|sx| |sx mx ex Bx] [sy|sy| |sy my ey By]; try reflexivity;
    try (cbn; destruct sx, sy; reflexivity).
  cbn [SFsub B2SF Bminus]. unfold Zminus. rewrite <- cond_Zopp_negb. apply norm_equiv.
Qed.
Lemma mul_equiv : forall x y : B, SFmul 53 1024 (bin x) (bin y) = bin (Bmult mode_NE x y).
Proof.
  intros [sx|sx| |sx mx ex Bx] [sy|sy| |sy my ey By]; try reflexivity.
  cbn [SFmul B2SF Bmult]. rewrite B2SF_SF2B. apply aux_equiv.
Qed.
Lemma div_equiv : forall x y : B, SFdiv 53 1024 (bin x) (bin y) = bin (Bdiv mode_NE x y).
Proof.
  intros [sx|sx| |sx mx ex Bx] [sy|sy| |sy my ey By]; try reflexivity.
  cbn [SFdiv B2SF Bdiv]. rewrite B2SF_SF2B. destruct (SFdiv_core_binary _ _ _ _ _ _) as [[mz ez] lz]. apply aux_equiv.
Qed.
Lemma sqrt_equiv : forall x : B, SFsqrt 53 1024 (bin x) = bin (Bsqrt mode_NE x).
Proof.
  intros [sx|sx| |sx mx ex Bx]; try reflexivity; try (destruct sx; reflexivity).
  destruct sx; [reflexivity|]. cbn [SFsqrt B2SF Bsqrt]. rewrite B2SF_SF2B.
  destruct (SFsqrt_core_binary _ _ _ _) as [[mz ez] lz]. apply aux_equiv.
Qed.

(** The double as a number of Flocq. *)
Definition flo (x : D64) : B := SF2B (raw x) (raw_valid x).
Lemma flo_raw : forall x, bin (flo x) = raw x.
Proof. intro x. unfold flo. apply B2SF_SF2B. Qed.
Lemma num_SF2R : forall x, num64 x = SF2R radix2 x.
Proof.
  intros [s|s| |s m e]; try reflexivity. cbn [num64 SF2R]. unfold F2R. cbn [Fnum Fexp].
  rewrite <- (bpow_powerRZ radix2). destruct s; [|reflexivity]. cbn [cond_Zopp]. rewrite opp_IZR. reflexivity.
Qed.
Lemma val_flo : forall x, val64 x = B2R (flo x).
Proof. intro x. unfold val64, flo. rewrite B2R_SF2B. apply num_SF2R. Qed.
Lemma raw_bin : forall b : B, raw (mk64 (bin b)) = bin b.
Proof. intro b. apply mk_raw, valid_binary_B2SF. Qed.
Lemma val_bin : forall b : B, val64 (mk64 (bin b)) = B2R b.
Proof. intro b. unfold val64. rewrite raw_bin, num_SF2R. apply SF2R_B2SF. Qed.
Lemma fin_bin : forall b : B, finD (mk64 (bin b)) <-> is_finite b = true.
Proof. intro b. unfold finD. rewrite raw_bin. destruct b; cbn; split; congruence || tauto. Qed.
Lemma fin_flo : forall x, finD x <-> is_finite (flo x) = true.
Proof. intro x. rewrite <- fin_bin, flo_raw, mk_of_raw. reflexivity. Qed.
Lemma raw_add : forall x y, raw (aadd AD x y) = SFadd 53 1024 (raw x) (raw y).
Proof. intros x y. cbn [aadd AD]. unfold bin64. rewrite <- (flo_raw x), <- (flo_raw y), add_equiv. apply raw_bin. Qed.
Lemma raw_sub : forall x y, raw (asub AD x y) = SFsub 53 1024 (raw x) (raw y).
Proof. intros x y. cbn [asub AD]. unfold bin64. rewrite <- (flo_raw x), <- (flo_raw y), sub_equiv. apply raw_bin. Qed.
Lemma raw_mul : forall x y, raw (amul AD x y) = SFmul 53 1024 (raw x) (raw y).
Proof. intros x y. cbn [amul AD]. unfold bin64. rewrite <- (flo_raw x), <- (flo_raw y), mul_equiv. apply raw_bin. Qed.
Lemma raw_div : forall x y, raw (adiv AD x y) = SFdiv 53 1024 (raw x) (raw y).
Proof. intros x y. cbn [adiv AD]. unfold bin64. rewrite <- (flo_raw x), <- (flo_raw y), div_equiv. apply raw_bin. Qed.
Lemma raw_sqrt : forall x, raw (asqrt AD x) = SFsqrt 53 1024 (raw x).
Proof. intros x. cbn [asqrt AD]. rewrite <- (flo_raw x), sqrt_equiv. apply raw_bin. Qed.
Lemma raw_opp : forall x, raw (aopp AD x) = SFopp (raw x).
Proof. intros x. cbn [aopp AD]. apply mk_raw. pose proof (raw_valid x) as H. destruct (raw x); exact H. Qed.
Lemma raw_abs : forall x, raw (aabs AD x) = SFabs (raw x).
Proof. intros x. cbn [aabs AD]. apply mk_raw. pose proof (raw_valid x) as H. destruct (raw x); exact H. Qed.
Lemma raw_nat : forall n, raw (anat AD n) = f64_of (Z.of_nat n) 0.
Proof. intros n. cbn [anat AD]. unfold dbl, f64_of. rewrite norm_equiv. apply raw_bin. Qed.
Lemma raw_zero : raw (a0 AD) = S754_zero false.
Proof. reflexivity. Qed.
Lemma max_cases : forall x y, max64 x y = x \/ max64 x y = y.
Proof. intros x y. unfold max64. destruct (nan64b x); auto. destruct (nan64b y); auto. destruct (SFltb x y); auto. Qed.
Lemma raw_max : forall l, raw (amax AD l) = fold_right max64 (S754_infinity true) (map raw l).
Proof.
  intros l. cbn [amax AD]. induction l as [|x l IH]; [reflexivity|]. cbn [fold_right map]. rewrite <- IH.
  unfold bin64 at 1. apply mk_raw. destruct (max_cases (raw x) (raw (fold_right (bin64 max64) (mk64 (S754_infinity true)) l))) as [-> | ->]; apply raw_valid.
Qed.

(** ** Laws *)
Lemma nan_D : forall x, Float_Spec.is_nan AD x <-> Float_Spec.is_nan A64 (raw x).
Proof. intro x. reflexivity. Qed.
Lemma sum_D : forall l, summed AD l (asum AD l).
Proof.
  intros l. cbn [asum AD]. induction l as [|x l IH]; [apply summed_nil|].
  cbn [fold_right]. change (x :: l) with ([x] ++ l). apply (summed_app AD [x] l x _ (summed_one AD x) IH).
Qed.

Theorem double_laws : laws AD finD.
Proof.
  pose proof binary64_laws as L.
  split; unfold Float_Spec.is_nan, not_pos, not_neg, finD; cbn [alt ale aeq AD];
    intros; rewrite ?raw_add, ?raw_sub, ?raw_mul, ?raw_div, ?raw_sqrt, ?raw_opp, ?raw_abs, ?raw_nat, ?raw_max in *;
    change (raw (a0 AD)) with (a0 A64) in *.
  - exact I.
  - apply (l_fin_dec _ _ L).
  - apply (l_fin_nan _ _ L). assumption.
  - apply (l_lt_nan _ _ L). assumption.
  - apply (l_le_nan _ _ L). assumption.
  - apply (l_eq_nan _ _ L). assumption.
  - apply (l_add_nan _ _ L). assumption.
  - apply (l_sub_nan _ _ L). assumption.
  - apply (l_mul_nan _ _ L). assumption.
  - apply (l_div_nan _ _ L). assumption.
  - apply (l_opp_nan _ _ L). assumption.
  - apply (l_abs_nan _ _ L). assumption.
  - apply (l_sqrt_nan _ _ L). assumption.
  - apply (l_add_fin _ _ L). assumption.
  - apply (l_sub_fin _ _ L). assumption.
  - apply (l_mul_fin _ _ L). assumption.
  - apply (l_opp_fin _ _ L).
  - apply (l_zero_times _ _ L). assumption.
  - apply (l_inf_ratio _ _ L); assumption.
  - eapply (l_abs_small _ _ L). eassumption.
  - apply (l_lt_le _ _ L). assumption.
  - apply (l_lt_irrefl _ _ L).
  - apply (l_total _ _ L); assumption.
  - eapply (l_le_lt _ _ L); eassumption.
  - apply (l_zero_lt _ _ L); assumption.
  - apply (l_zero_le _ _ L); assumption.
  - reflexivity.
  - apply (l_zero_add _ _ L); assumption.
  - apply (l_zero_sub _ _ L); assumption.
  - apply (l_zero_mul _ _ L); assumption.
  - apply (l_zero_opp _ _ L); assumption.
  - apply (l_zero_fin _ _ L); assumption.
  - apply (l_opp_lt _ _ L).
  - apply (l_zero_flow _ _ L); assumption.
  - apply (l_opp_pos _ _ L); assumption.
  - apply (l_opp_neg _ _ L); assumption.
  - apply (l_add_sign _ _ L); assumption.
  - apply (l_mul_sign _ _ L); assumption.
  - apply (l_div_sign _ _ L); assumption.
  - apply (l_share _ _ L); assumption.
  - apply sum_D.
  - apply (l_max_nan _ _ L) with (raw x); [apply in_map|]; assumption.
  - apply (l_max_some _ _ L). intros y Y. apply in_map_iff in Y. destruct Y as (z & <- & Z). apply H, Z.
  - apply (l_max_above _ _ L); [apply in_map|]; assumption.
Qed.

(** ** Rounding *)
Definition u64 : R := / 2 ^ 53.
Definition eta64 : R := / 2 ^ 1075.
Local Notation rnd := (round radix2 (SpecFloat.fexp 53 1024) (round_mode mode_NE)).
Local Notation fmt := (generic_format radix2 (SpecFloat.fexp 53 1024)).

Lemma bpow_neg : forall n, bpow radix2 (- Z.of_nat n) = / 2 ^ n.
Proof. intro n. rewrite bpow_opp, bpow_powerRZ, <- pow_powerRZ. reflexivity. Qed.
Lemma u_eq : u_ro radix2 53 = u64.
Proof.
  unfold u_ro, u64. replace (bpow radix2 (- (53) + 1)) with (/ 2 ^ 52) by (symmetry; apply (bpow_neg 52)).
  replace (2 ^ 53) with (2 * 2 ^ 52) by (rewrite <- tech_pow_Rmult; reflexivity).
  rewrite Rinv_mult. reflexivity.
Qed.
Lemma eta_eq : / 2 * bpow radix2 (-1074) = eta64.
Proof.
  unfold eta64. replace (bpow radix2 (-1074)) with (/ 2 ^ 1074) by (symmetry; apply (bpow_neg 1074)).
  rewrite <- Rinv_mult. reflexivity.
Qed.

Lemma round_half : forall x, close u64 eta64 (rnd x) x.
Proof.
  intro x. destruct (@error_N_FLT radix2 (-1074) 53 eq_refl (fun n => negb (Z.even n)) x) as (d & e & D & E & _ & Q).
  unfold close. change (rnd x) with (round radix2 (FLT_exp (-1074) 53) (Znearest (fun n => negb (Z.even n))) x). rewrite Q.
  replace (x * (1 + d) + e - x) with (x * d + e) by ring.
  eapply Rle_trans; [apply Rabs_triang|]. rewrite Rabs_mult, (Rmult_comm u64). rewrite <- u_eq, <- eta_eq.
  apply Rplus_le_compat; [|exact E]. apply Rmult_le_compat_l; [apply Rabs_pos|exact D].
Qed.
Lemma close_ex : forall x y d, Rabs d <= u64 -> y = x * (1 + d) -> close u64 0 y x.
Proof.
  intros x y d D ->. unfold close. replace (x * (1 + d) - x) with (d * x) by ring.
  rewrite Rabs_mult, Rplus_0_r. apply Rmult_le_compat_r; [apply Rabs_pos|exact D].
Qed.
Lemma u_pos : 0 <= u64 <= / 4.
Proof.
  unfold u64. split; [left; apply Rinv_0_lt_compat, pow_lt; lra|].
  replace 4 with (2 ^ 2) by ring. apply Rinv_le; [apply pow_lt; lra|]. apply Rle_pow; [lra|lia].
Qed.
Lemma round_plus : forall x y, fmt x -> fmt y -> close u64 0 (rnd (x + y)) (x + y).
Proof.
  intros x y X Y. destruct (@FLT_plus_error_N_ex radix2 (-1074) 53 eq_refl (fun n => negb (Z.even n)) x y X Y) as (d & D & Q).
  apply close_ex with d; [|exact Q]. eapply Rle_trans; [exact D|]. rewrite <- u_eq.
  apply (@u_rod1pu_ro_le_u_ro radix2 53).
Qed.
Lemma round_sqrt : forall x, fmt x -> close u64 0 (rnd (sqrt x)) (sqrt x).
Proof.
  intros x X. destruct (@sqrt_error_N_FLT_ex radix2 53 eq_refl (fun n => negb (Z.even n)) eq_refl (-1074) ltac:(lia) x X) as (d & D & Q).
  apply close_ex with d; [|exact Q]. eapply Rle_trans; [exact D|]. rewrite u_eq.
  pose proof u_pos as U. set (u := u64) in *.
  assert (S1 : sqrt (1 + 2 * u) <= 1 + u).
  { rewrite <- (sqrt_Rsqr (1 + u)) by lra. apply sqrt_le_1_alt. unfold Rsqr. nra. }
  assert (S0 : 0 < sqrt (1 + 2 * u)) by (apply sqrt_lt_R0; lra).
  assert (1 - u <= 1 / sqrt (1 + 2 * u)); [|lra].
  apply Rmult_le_reg_r with (sqrt (1 + 2 * u)); [exact S0|]. unfold Rdiv. rewrite Rmult_assoc, Rinv_l, Rmult_1_r by lra. nra.
Qed.
Lemma over_fin : forall (b : B) s, bin b = binary_overflow 53 1024 mode_NE s -> is_finite b = false.
Proof. intros b s E. destruct b; cbn in E; try discriminate; reflexivity. Qed.

Lemma val_add : forall x y, finD (aadd AD x y) -> val64 (aadd AD x y) = rnd (val64 x + val64 y).
Proof.
  intros x y H. pose proof (l_add_fin _ _ double_laws _ _ H) as [X Y]. apply fin_flo in X, Y.
  cbn [aadd AD] in *. unfold bin64 in *. rewrite <- (flo_raw x), <- (flo_raw y), add_equiv in H |- *.
  rewrite val_bin, !val_flo. apply fin_bin in H.
  pose proof (Bplus_correct 53 1024 HP HM mode_NE (flo x) (flo y) X Y) as Q.
  destruct (Rlt_bool _ _); [apply Q|]. destruct Q as [Q _]. apply over_fin in Q. congruence.
Qed.
Lemma val_sub : forall x y, finD (asub AD x y) -> val64 (asub AD x y) = rnd (val64 x - val64 y).
Proof.
  intros x y H. pose proof (l_sub_fin _ _ double_laws _ _ H) as [X Y]. apply fin_flo in X, Y.
  cbn [asub AD] in *. unfold bin64 in *. rewrite <- (flo_raw x), <- (flo_raw y), sub_equiv in H |- *.
  rewrite val_bin, !val_flo. apply fin_bin in H.
  pose proof (Bminus_correct 53 1024 HP HM mode_NE (flo x) (flo y) X Y) as Q.
  destruct (Rlt_bool _ _); [apply Q|]. destruct Q as [Q _]. apply over_fin in Q. congruence.
Qed.
Lemma val_mul : forall x y, finD (amul AD x y) -> val64 (amul AD x y) = rnd (val64 x * val64 y).
Proof.
  intros x y H.
  cbn [amul AD] in *. unfold bin64 in *. rewrite <- (flo_raw x), <- (flo_raw y), mul_equiv in H |- *.
  rewrite val_bin, !val_flo. apply fin_bin in H.
  pose proof (Bmult_correct 53 1024 HP HM mode_NE (flo x) (flo y)) as Q.
  destruct (Rlt_bool _ _); [apply Q|]. apply over_fin in Q. congruence.
Qed.
Lemma div_fin : forall x y, finD y -> finD (adiv AD x y) -> finD x /\ val64 y <> 0.
Proof.
  intros x y. rewrite !(fin_flo x), (fin_flo y). rewrite (val_flo y). unfold finD. rewrite raw_div, <- (flo_raw x), <- (flo_raw y).
  destruct (flo y) as [sy|sy| |sy my ey By]; intros Y H; try discriminate.
  - exfalso. destruct (flo x); exact H.
  - split; [destruct (flo x); cbn in H |- *; tauto|]. cbn [B2R]. intro Z. apply eq_0_F2R in Z. destruct sy; discriminate.
Qed.
Lemma val_div : forall x y, finD y -> finD (adiv AD x y) -> val64 (adiv AD x y) = rnd (val64 x / val64 y).
Proof.
  intros x y Y H. destruct (div_fin x y Y H) as [X Z].
  cbn [adiv AD] in *. unfold bin64 in *. rewrite <- (flo_raw x), <- (flo_raw y), div_equiv in H |- *.
  rewrite val_bin, !val_flo in *. apply fin_bin in H.
  pose proof (Bdiv_correct 53 1024 HP HM mode_NE (flo x) (flo y) Z) as Q.
  destruct (Rlt_bool _ _); [apply Q|]. apply over_fin in Q. congruence.
Qed.
Lemma val_sqrt : forall x, val64 (asqrt AD x) = rnd (sqrt (val64 x)).
Proof.
  intros x. cbn [asqrt AD] in *. rewrite <- (flo_raw x), sqrt_equiv.
  rewrite val_bin, !val_flo. apply (Bsqrt_correct 53 1024 HP HM mode_NE (flo x)).
Qed.
Lemma val_nat : forall n, finD (anat AD n) -> val64 (anat AD n) = rnd (INR n).
Proof.
  intros n H. cbn [anat AD] in *. unfold dbl, f64_of in *. rewrite norm_equiv in H |- *. rewrite val_bin. apply fin_bin in H.
  pose proof (binary_normalize_correct 53 1024 HP HM mode_NE (Z.of_nat n) 0 false) as Q. cbv zeta in Q.
  replace (F2R (Float radix2 (Z.of_nat n) 0)) with (INR n) in Q
    by (unfold F2R; cbn [Fnum Fexp bpow]; rewrite Rmult_1_r; apply INR_IZR_INZ).
  destruct (Rlt_bool _ _); [apply Q|]. apply over_fin in Q. congruence.
Qed.
Lemma compare_flo : forall x y, finD x -> finD y -> SFcompare (raw x) (raw y) = Some (Rcompare (val64 x) (val64 y)).
Proof.
  intros x y X Y. apply fin_flo in X, Y. rewrite !val_flo, <- (flo_raw x), <- (flo_raw y).
  exact (Bcompare_correct 53 1024 (flo x) (flo y) X Y).
Qed.
Lemma fmt_val : forall x, fmt (val64 x).
Proof. intro x. rewrite val_flo. apply generic_format_B2R. Qed.

Theorem double_rounding : rounding AD finD val64 u64 eta64.
Proof.
  split.
  - exact u_pos.
  - unfold eta64. left. apply Rinv_0_lt_compat, pow_lt. lra.
  - reflexivity.
  - intro x. unfold val64. rewrite raw_opp. destruct (raw x) as [s|s| |s m e]; cbn [SFopp num64]; try ring. destruct s; cbn [negb]; ring.
  - intro x. unfold val64. rewrite raw_abs. destruct (raw x) as [s|s| |s m e]; cbn [SFabs num64]; try (rewrite Rabs_R0; reflexivity).
    rewrite Rabs_mult, (Rabs_pos_eq (powerRZ 2 e)) by (apply powerRZ_le; lra). f_equal.
    assert (0 <= IZR (Z.pos m)) by (apply IZR_le; lia).
    destruct s; [rewrite Rabs_Ropp|]; rewrite Rabs_pos_eq by assumption; reflexivity.
  - intro x. unfold finD. rewrite raw_abs. destruct (raw x); exact (fun H => H).
  - intros x y X Y. cbn [alt AD]. unfold SFltb. rewrite (compare_flo x y X Y).
    destruct (Rcompare_spec (val64 x) (val64 y)); split; intro; try lra; try reflexivity; discriminate.
  - intros x y X Y. cbn [ale AD]. unfold SFleb. rewrite (compare_flo x y X Y).
    destruct (Rcompare_spec (val64 x) (val64 y)); split; intro; try lra; try reflexivity; discriminate.
  - intros x y X Y. cbn [aeq AD]. unfold SFeqb. rewrite (compare_flo x y X Y).
    destruct (Rcompare_spec (val64 x) (val64 y)); split; intro; try lra; try reflexivity; discriminate.
  - intros x y H. rewrite (val_add x y H). apply round_plus; apply fmt_val.
  - intros x y H Z. rewrite (val_add x y H). apply round_generic; [apply valid_rnd_round_mode|].
    destruct Z as [-> | ->]; rewrite ?Rplus_0_l, ?Rplus_0_r; apply fmt_val.
  - intros x y H. rewrite (val_sub x y H). unfold Rminus. apply round_plus; [apply fmt_val|].
    apply generic_format_opp, fmt_val.
  - intros x y H. rewrite (val_mul x y H). apply round_half.
  - intros x y Y H. rewrite (val_div x y Y H). apply round_half.
  - intros x H. rewrite val_sqrt. apply round_sqrt, fmt_val.
  - intros n H. rewrite (val_nat n H). unfold close. destruct n as [|n].
    + cbn [INR]. rewrite round_0 by apply valid_rnd_round_mode. rewrite Rminus_0_r, Rabs_R0. lra.
    + rewrite Rplus_0_r, <- u_eq. apply (@relative_error_N_FLT radix2 (-1074) 53 eq_refl (fun n => negb (Z.even n))).
      rewrite Rabs_pos_eq by apply pos_INR. apply Rle_trans with 1; [|rewrite S_INR; pose proof (pos_INR n); lra].
      change 1 with (bpow radix2 0). apply bpow_le. lia.
  - exact div_fin.
  - intros x H. unfold finD, val64 in *. rewrite raw_sqrt in H. destruct (raw x) as [s|[]| |[] m e]; cbn [SFsqrt fin64 num64] in *; try tauto; try (split; [exact I|lra]).
    split; [exact I|]. apply Rmult_le_pos; [apply IZR_le; lia|apply powerRZ_le; lra].
  - intros x. unfold not_neg. cbn [alt AD]. rewrite raw_sqrt, <- (flo_raw x), sqrt_equiv.
    destruct (SFltb (bin (Bsqrt mode_NE (flo x))) (raw (a0 AD))) eqn:E; [exfalso|reflexivity].
    destruct (Bsqrt_correct 53 1024 HP HM mode_NE (flo x)) as (Q1 & Q2 & Q3).
    destruct (flo x) as [s|[]| |[] m e Bb]; try (cbn in E; discriminate); try (destruct s; cbn in E; discriminate).
    destruct (Bsqrt mode_NE (B754_finite false m e Bb)) as [s'|s'| |s' m' e' B']; cbn in Q2; try discriminate;
      specialize (Q3 eq_refl); cbn in Q3; subst s'; discriminate.
  - intros x y. unfold not_neg, finD. cbn [alt AD]. change (raw (a0 AD)) with (S754_zero false).
    destruct (raw x) as [s|[]| |[] m e], (raw y) as [s'|[]| |[] m' e']; cbn [fin64]; intros; try exact I; try tauto; discriminate.
  - intros x y. unfold finD. cbn [aeq AD].
    destruct (raw x) as [s|[]| |[] m e], (raw y) as [s'|[]| |[] m' e']; cbn [fin64]; intros; try exact I; try tauto; discriminate.
  - intros x H. rewrite (val_mul x x H). apply round_ge_generic; [exact (fexp_correct 53 1024 HP)|apply valid_rnd_round_mode|apply generic_format_0|].
    apply Rle_0_sqr.
Qed.
Print Assumptions double_rounding.
