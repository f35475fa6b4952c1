(** * Numbers stored in 32 bits *)
From Coq Require Import Reals ZArith Lia Lra List.
From Verif Require Import Logger_Model Logger_Read NetCDF_Model.
Import ListNotations.
Local Open Scope Z_scope.

Lemma ln2 : (0 < ln 2)%R.
Proof. rewrite <- ln_1. apply ln_increasing; lra. Qed.
Lemma pow2 : forall z, (0 < powerRZ 2 z)%R.
Proof. intro z. apply powerRZ_lt. lra. Qed.
Lemma pow2_add : forall a b, (powerRZ 2 a * powerRZ 2 b = powerRZ 2 (a + b))%R.
Proof. intros. symmetry. apply powerRZ_add. lra. Qed.
Lemma pow2_nat : forall n : nat, powerRZ 2 (Z.of_nat n) = IZR (2 ^ Z.of_nat n).
Proof. intro n. rewrite <- pow_powerRZ. symmetry. rewrite <- pow_IZR. reflexivity. Qed.
Lemma pow2_lt : forall a b, a < b -> (powerRZ 2 a < powerRZ 2 b)%R.
Proof.
  intros a b L. rewrite !powerRZ_Rpower by lra. apply Rpower_lt; [lra|]. apply IZR_lt. exact L.
Qed.
Lemma pow2_le : forall a b, a <= b -> (powerRZ 2 a <= powerRZ 2 b)%R.
Proof. intros a b L. destruct (Z.eq_dec a b) as [->|N]; [lra|]. left. apply pow2_lt. lia. Qed.

Lemma exponent2 : forall a, (0 < a)%R ->
  (powerRZ 2 (Int_part (ln a / ln 2)) <= a < powerRZ 2 (Int_part (ln a / ln 2) + 1))%R.
Proof.
  intros a A. set (e := Int_part (ln a / ln 2)). pose proof ln2 as L.
  pose proof (int_part_bounds (ln a / ln 2)) as [B1 B2]. fold e in B1, B2.
  assert (P : (ln a = ln a / ln 2 * ln 2)%R) by (field; lra).
  rewrite !powerRZ_Rpower by lra. unfold Rpower.
  cut (exp (IZR e * ln 2) <= exp (ln a) < exp (IZR (e + 1) * ln 2))%R; [rewrite (exp_ln a A); auto|]. split.
  - destruct (Req_dec (IZR e * ln 2) (ln a)) as [E|E]; [rewrite E; lra|]. left. apply exp_increasing.
    assert (IZR e * ln 2 <= ln a / ln 2 * ln 2)%R by (apply Rmult_le_compat_r; lra). lra.
  - apply exp_increasing. rewrite plus_IZR.
    assert (ln a / ln 2 * ln 2 < (IZR e + 1) * ln 2)%R by (apply Rmult_lt_compat_r; lra). lra.
Qed.
Lemma exponent2_between : forall a lo hi, (powerRZ 2 lo <= a < powerRZ 2 hi)%R ->
  lo <= Int_part (ln a / ln 2) < hi.
Proof.
  intros a lo hi [A B]. pose proof (pow2 lo) as P.
  destruct (exponent2 a ltac:(lra)) as [L U]. set (e := Int_part (ln a / ln 2)) in *.
  split.
  - destruct (Z_le_gt_dec lo e); [assumption|]. pose proof (pow2_le (e + 1) lo ltac:(lia)). lra.
  - destruct (Z_lt_ge_dec e hi); [assumption|]. pose proof (pow2_le hi e ltac:(lia)). lra.
Qed.

Section Round.
  Variable ov : Z -> R.
  Variable subnormal : R -> R.

  (** Single precision keeps a relative accuracy of [2^-24]. *)
  Lemma f4_error : forall x, (powerRZ 2 (-126) <= Rabs x < powerRZ 2 127)%R ->
    (Rabs (to_f4 subnormal x - x) <= / 2 ^ 24 * Rabs x)%R.
  Proof.
    intros x B. pose proof (pow2 (-126)) as P0. unfold to_f4. destruct (Req_EM_T x 0) as [->|N].
    { rewrite Rabs_R0 in B. lra. }
    cbv zeta. set (a := Rabs x) in *. set (e := Int_part (ln a / ln 2)).
    destruct (exponent2 a ltac:(lra)) as [L U]. fold e in L, U.
    pose proof (exponent2_between a (-126) 127 B) as E. fold e in E.
    replace (andb (-126 <=? e) (e <? 127)) with true
      by (symmetry; apply andb_true_intro; split; [apply Z.leb_le|apply Z.ltb_lt]; lia).
    set (m := round_even (a * powerRZ 2 (23 - e))).
    assert (ERR : (Rabs (IZR m * powerRZ 2 (e - 23) - a) <= / 2 ^ 24 * a)%R).
    { replace a with (a * powerRZ 2 (23 - e) * powerRZ 2 (e - 23))%R at 1
        by (rewrite Rmult_assoc, pow2_add; replace (23 - e + (e - 23)) with 0 by lia; cbn; lra).
      rewrite <- Rmult_minus_distr_r, Rabs_mult, (Rabs_right (powerRZ 2 (e - 23))) by (left; apply pow2).
      apply Rle_trans with (/ 2 * powerRZ 2 (e - 23))%R.
      - apply Rmult_le_compat_r; [left; apply pow2|]. apply round_bounds.
      - replace (/ 2 * powerRZ 2 (e - 23))%R with (/ 2 ^ 24 * powerRZ 2 e)%R.
        + apply Rmult_le_compat_l; [|exact L]. left. apply Rinv_0_lt_compat, pow_lt. lra.
        + replace (e - 23) with (e + (-23)) by lia. rewrite <- pow2_add.
          replace (powerRZ 2 (-23)) with (/ 2 ^ 23)%R by (cbn; reflexivity). 
          replace (2 ^ 24)%R with (2 * 2 ^ 23)%R by reflexivity.
          rewrite Rinv_mult. ring. }
    destruct (Rlt_dec x 0) as [S|S].
    - replace (- (IZR m * powerRZ 2 (e - 23)) - x)%R with (- (IZR m * powerRZ 2 (e - 23) - a))%R
        by (unfold a; rewrite (Rabs_left x S); ring).
      rewrite Rabs_Ropp. exact ERR.
    - assert (AX : a = x) by (unfold a; apply Rabs_right; lra). rewrite <- AX. exact ERR.
  Qed.

  Lemma round_even_IZR : forall z, round_even (IZR z) = z.
  Proof.
    intro z. pose proof (round_bounds (IZR z)) as R.
    assert (A : (-1 < IZR (round_even (IZR z)) - IZR z < 1)%R) by (clear - R; split_Rabs; lra).
    rewrite <- minus_IZR in A. destruct A as [A B]. apply lt_IZR in A. apply lt_IZR in B. lia.
  Qed.

  (** Numbers with at most 24 binary digits are kept. *)
  Lemma f4_exact : forall m k, - 2 ^ 24 < m < 2 ^ 24 ->
    (powerRZ 2 (-126) <= Rabs (IZR m * powerRZ 2 k) < powerRZ 2 127)%R ->
    to_f4 subnormal (IZR m * powerRZ 2 k) = (IZR m * powerRZ 2 k)%R.
  Proof.
    intros m k M B. set (x := (IZR m * powerRZ 2 k)%R) in *. pose proof (pow2 (-126)) as P0.
    unfold to_f4. destruct (Req_EM_T x 0) as [->|N]; [reflexivity|]. cbv zeta.
    set (a := Rabs x) in *. set (e := Int_part (ln a / ln 2)).
    pose proof (exponent2_between a (-126) 127 B) as E. fold e in E.
    replace (andb (-126 <=? e) (e <? 127)) with true
      by (symmetry; apply andb_true_intro; split; [apply Z.leb_le|apply Z.ltb_lt]; lia).
    assert (AX : a = (IZR (Z.abs m) * powerRZ 2 k)%R).
    { unfold a, x. rewrite Rabs_mult, <- abs_IZR. f_equal. apply Rabs_right. left. apply pow2. }
    assert (EK : e <= k + 23).
    { assert (e < k + 24); [|lia]. apply (exponent2_between a (-126) (k + 24)). split; [lra|].
      rewrite AX. replace (k + 24) with (24 + k) by lia. rewrite <- pow2_add.
      apply Rmult_lt_compat_r; [apply pow2|]. change 24 with (Z.of_nat 24). rewrite pow2_nat. apply IZR_lt. cbn in M |- *. lia. }
    assert (INT : (a * powerRZ 2 (23 - e) = IZR (Z.abs m * 2 ^ (k + 23 - e)))%R).
    { rewrite AX, Rmult_assoc, pow2_add, mult_IZR. f_equal. replace (k + (23 - e)) with (Z.of_nat (Z.to_nat (k + 23 - e))) by lia.
      rewrite pow2_nat. f_equal. f_equal. lia. }
    rewrite INT, round_even_IZR, <- INT.
    replace (a * powerRZ 2 (23 - e) * powerRZ 2 (e - 23))%R with a
      by (rewrite Rmult_assoc, pow2_add; replace (23 - e + (e - 23)) with 0 by lia; cbn; lra).
    destruct (Rlt_dec x 0) as [S|S]; unfold a; [rewrite (Rabs_left x S)|rewrite (Rabs_right x) by lra]; lra.
  Qed.

  Lemma int_part_unique : forall x z, (IZR z <= x < IZR z + 1)%R -> Int_part x = z.
  Proof.
    intros x z [A B]. pose proof (int_part_bounds x) as [C D].
    assert (P : (IZR (Int_part x) < IZR (z + 1))%R) by (rewrite plus_IZR; lra).
    assert (Q : (IZR z < IZR (Int_part x + 1))%R) by (rewrite plus_IZR; lra).
    apply lt_IZR in P. apply lt_IZR in Q. lia.
  Qed.
  Lemma trunc_IZR : forall z, trunc (IZR z) = z.
  Proof.
    intro z. unfold trunc. destruct (Rlt_dec (IZR z) 0).
    - rewrite (int_part_unique (- IZR z) (- z)); [lia|]. rewrite opp_IZR. lra.
    - apply int_part_unique. lra.
  Qed.
  Lemma i4_exact : forall z, - 2 ^ 31 <= z < 2 ^ 31 -> to_i4 ov (IZR z) = IZR z.
  Proof.
    intros z B. unfold to_i4. cbv zeta. rewrite trunc_IZR.
    replace (andb (- 2 ^ 31 <=? z) (z <? 2 ^ 31)) with true; [reflexivity|].
    symmetry. apply andb_true_intro. split; [apply Z.leb_le|apply Z.ltb_lt]; lia.
  Qed.
End Round.
