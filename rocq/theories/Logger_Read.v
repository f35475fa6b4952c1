(** * Proofs about reading a log back *)
From Coq Require Import Reals ZArith Lia Lra List Arith Bool Ascii String.
From Verif Require Import Py Logger_Model Logger_Spec Logger_Proofs Logger_Files.
Import ListNotations.
Local Open Scope string_scope.
Local Open Scope list_scope.
Local Open Scope Z_scope.

(** ** Splitting *)
Definition clean (sp : ascii -> bool) (s : text) : Prop := forall c, In c s -> sp c = false.

Lemma split_word : forall sp w acc rest, clean sp w ->
  split_at sp (w ++ rest) acc = split_at sp rest (acc ++ w).
Proof.
  intros sp w. induction w as [|c w IH]; intros acc rest H; [rewrite app_nil_r; reflexivity|].
  cbn [app split_at]. rewrite (H c (or_introl eq_refl)), IH by (intros d D; apply H; right; exact D).
  rewrite <- app_assoc. reflexivity.
Qed.
Lemma split_blanks : forall sp k s, sp " "%char = true ->
  split_at sp (repeat " "%char k ++ s) [] = split_at sp s [].
Proof. intros sp k s H. induction k as [|k IH]; [reflexivity|]. cbn [repeat app split_at]. rewrite H. exact IH. Qed.

Lemma split_join : forall sp (l : list (nat * text)), sp " "%char = true ->
  (forall p, In p l -> snd p <> [] /\ clean sp (snd p)) ->
  split_at sp (join (map (fun p => rjust (fst p) (snd p)) l)) [] = map snd l.
Proof.
  intros sp l SP. induction l as [|[k w] l IH]; intros H; [reflexivity|].
  destruct (H (k, w) (or_introl eq_refl)) as [NE CL]. cbn [fst snd] in NE, CL.
  cbn [map snd]. destruct l as [|q l].
  - cbn [map join fst snd]. unfold rjust. rewrite split_blanks by exact SP.
    rewrite <- (app_nil_r w) at 1. rewrite split_word by exact CL. cbn [app split_at].
    destruct w; [contradiction|reflexivity].
  - remember (q :: l) as l0 eqn:EL.
    assert (J : join (map (fun p => rjust (fst p) (snd p)) ((k, w) :: l0))
      = rjust k w ++ [" "%char; " "%char] ++ join (map (fun p => rjust (fst p) (snd p)) l0)).
    { subst l0. reflexivity. }
    change (split_at sp (join (map (fun p => rjust (fst p) (snd p)) ((k, w) :: l0))) [] = w :: map snd l0).
    rewrite J. unfold rjust at 1. rewrite <- app_assoc, split_blanks by exact SP.
    rewrite split_word by exact CL. cbn [app split_at]. rewrite SP.
    destruct w as [|c w]; [contradiction|]. f_equal. cbn [split_at].
    apply IH. intros p P. apply H. right. exact P.
Qed.

Lemma in_rjust : forall k w c, In c (rjust k w) -> c = " "%char \/ In c w.
Proof.
  intros k w c H. unfold rjust in H. apply in_app_or in H. destruct H as [H|H]; [left|right; exact H].
  apply repeat_spec in H. exact H.
Qed.
Lemma in_join : forall l c, In c (join l) -> c = " "%char \/ exists w, In w l /\ In c w.
Proof.
  induction l as [|a l IH]; intros c H; [contradiction|].
  destruct l as [|b l]; [right; exists a; split; [left; reflexivity|exact H]|].
  change (join (a :: b :: l)) with (a ++ [" "%char; " "%char] ++ join (b :: l)) in H.
  apply in_app_or in H. destruct H as [H|[H|[H|H]]].
  - right. exists a. split; [left; reflexivity|exact H].
  - left; auto.
  - left; auto.
  - destruct (IH c H) as [E|(w & W & I)]; [left; exact E|right; exists w; split; [right; exact W|exact I]].
Qed.

Lemma upto_absent : forall c s, ~ In c s -> upto c s = s.
Proof.
  intros c s. induction s as [|d s IH]; intros H; [reflexivity|]. cbn [upto].
  destruct (Ascii.eqb_spec d c); [exfalso; apply H; left; auto|]. f_equal. apply IH. intro I. apply H. right. exact I.
Qed.
Lemma upto_split : forall c s r, ~ In c s -> upto c (s ++ c :: r) = s.
Proof.
  intros c s r. induction s as [|d s IH]; intros H; cbn [app upto]; [rewrite Ascii.eqb_refl; reflexivity|].
  destruct (Ascii.eqb_spec d c); [exfalso; apply H; left; auto|]. f_equal. apply IH. intro I. apply H. right. exact I.
Qed.
Lemma after_split : forall c s r, ~ In c s -> after c (s ++ c :: r) = Some r.
Proof.
  intros c s r. induction s as [|d s IH]; intros H; cbn [app after]; [rewrite Ascii.eqb_refl; reflexivity|].
  destruct (Ascii.eqb_spec d c); [exfalso; apply H; left; auto|]. apply IH. intro I. apply H. right. exact I.
Qed.

(** ** Numbers *)
Lemma digit_code : forall c, is_digit c = true -> 48 <= code c <= 57.
Proof. intros c H. unfold is_digit in H. apply andb_true_iff in H. destruct H as [A B]. apply Z.leb_le in A, B. lia. Qed.
Lemma digit_not : forall c d, is_digit c = true -> ~ (48 <= code d <= 57) -> c <> d.
Proof. intros c d H N E. subst. apply N, digit_code, H. Qed.
Lemma digits_not_in : forall s d, forallb is_digit s = true -> ~ (48 <= code d <= 57) -> ~ In d s.
Proof. intros s d H N I. rewrite forallb_forall in H. apply N, digit_code, H, I. Qed.

Lemma fixed_nonempty : forall k n, (0 < k)%nat -> fixed k n <> [].
Proof. intros k n H E. pose proof (fixed_length k n) as L. rewrite E in L. cbn in L. lia. Qed.
Lemma unsigned_fixed : forall k n, (0 < k)%nat -> 0 <= n ->
  unsigned (fixed k n) = Some (n mod 10 ^ Z.of_nat k).
Proof.
  intros k n K N. unfold unsigned. pose proof (fixed_nonempty k n K). destruct (fixed k n) eqn:E; [contradiction|].
  rewrite <- E, fixed_digits, fixed_value by exact N. reflexivity.
Qed.
Lemma unsigned_number : forall n, 0 <= n -> unsigned (fixed (digits n) n) = Some n.
Proof.
  intros n H. rewrite unsigned_fixed by (auto using digits_pos). rewrite Z.mod_small; [reflexivity|].
  split; [exact H|apply digits_bound; exact H].
Qed.
Lemma signed_digit_head : forall s, forallb is_digit s = true -> signed s = unsigned s.
Proof.
  intros [|c s] H; [reflexivity|]. cbn [forallb] in H. apply andb_true_iff in H. destruct H as [H _].
  unfold signed. destruct (Ascii.eqb_spec c "-"%char) as [->|_]; [discriminate|].
  destruct (Ascii.eqb_spec c "+"%char) as [->|_]; [discriminate|]. reflexivity.
Qed.
Lemma signed_str_int : forall z, signed (str_int z) = Some z.
Proof.
  intro z. unfold str_int. destruct (Z.ltb_spec z 0).
  - cbn [signed Ascii.eqb Bool.eqb]. rewrite unsigned_number by lia. cbn. f_equal. lia.
  - rewrite signed_digit_head by apply fixed_digits. apply unsigned_number. lia.
Qed.
Lemma to_cell_int : forall z, to_cell (str_int z) = CInt z.
Proof. intro z. unfold to_cell. rewrite signed_str_int. reflexivity. Qed.

Lemma unsigned_nondigit : forall s c, In c s -> is_digit c = false -> unsigned s = None.
Proof.
  intros s c I D. unfold unsigned. destruct s as [|d s]; [contradiction|].
  destruct (forallb is_digit (d :: s)) eqn:E; [|reflexivity].
  rewrite forallb_forall in E. rewrite (E c I) in D. discriminate.
Qed.

(** ** Decimal exponents *)
Lemma ln10 : (0 < ln 10)%R.
Proof. rewrite <- ln_1. apply ln_increasing; lra. Qed.
Lemma int_part_bounds : forall x, (IZR (Int_part x) <= x < IZR (Int_part x) + 1)%R.
Proof. intro x. destruct (base_Int_part x). lra. Qed.
Lemma exponent_bounds : forall a, (0 < a)%R ->
  (powerRZ 10 (Int_part (ln a / ln 10)) <= a < powerRZ 10 (Int_part (ln a / ln 10) + 1))%R.
Proof.
  intros a A. set (e := Int_part (ln a / ln 10)). pose proof ln10 as L.
  pose proof (int_part_bounds (ln a / ln 10)) as [B1 B2]. fold e in B1, B2.
  assert (P : (ln a = ln a / ln 10 * ln 10)%R) by (field; lra).
  rewrite !powerRZ_Rpower by lra. unfold Rpower.
  cut (exp (IZR e * ln 10) <= exp (ln a) < exp (IZR (e + 1) * ln 10))%R; [rewrite (exp_ln a A); auto|]. split.
  - destruct (Req_dec (IZR e * ln 10) (ln a)) as [E|E]; [rewrite E; lra|]. left. apply exp_increasing.
    assert (IZR e * ln 10 <= ln a / ln 10 * ln 10)%R by (apply Rmult_le_compat_r; lra). lra.
  - apply exp_increasing. rewrite plus_IZR.
    assert (ln a / ln 10 * ln 10 < (IZR e + 1) * ln 10)%R by (apply Rmult_lt_compat_r; lra). lra.
Qed.

Lemma round_bounds : forall x, (Rabs (IZR (round_even x) - x) <= / 2)%R.
Proof.
  intro x. unfold round_even, frac_part. cbv zeta. pose proof (int_part_bounds x) as [B1 B2].
  destruct (Rlt_dec (x - IZR (Int_part x)) (1 / 2)); [apply Rabs_le; lra|].
  destruct (Rlt_dec (1 / 2) (x - IZR (Int_part x))); [rewrite plus_IZR; apply Rabs_le; lra|].
  destruct (Z.even (Int_part x)); [|rewrite plus_IZR]; apply Rabs_le; lra.
Qed.
Lemma round_between : forall x a b, (IZR a <= x)%R -> (x < IZR b)%R -> a <= round_even x <= b.
Proof.
  intros x a b A B. pose proof (round_bounds x) as R. assert (R' : (- / 2 <= IZR (round_even x) - x <= / 2)%R) by (clear - R; split_Rabs; lra).
  assert (IZR (round_even x) > IZR (a - 1))%R by (rewrite minus_IZR; lra).
  assert (IZR (round_even x) < IZR (b + 1))%R by (rewrite plus_IZR; lra).
  apply lt_IZR in H0. apply Rgt_lt, lt_IZR in H. lia.
Qed.

Lemma pow10 : forall z, (0 < powerRZ 10 z)%R.
Proof. intro z. apply powerRZ_lt. lra. Qed.
Lemma ten_neq : (10 <> 0)%R. Proof. lra. Qed.

Lemma sci_spec : forall x m e, x <> 0%R -> sci x = (m, e) ->
  10 ^ 12 <= m < 10 ^ 13 /\ (Rabs (IZR m * powerRZ 10 (e - 12) - Rabs x) <= 5 * / 10 ^ 13 * Rabs x)%R.
Proof.
  intros x m e X S. unfold sci in S. cbv zeta in S.
  set (a := Rabs x) in *. assert (A : (0 < a)%R) by (apply Rabs_pos_lt; exact X).
  set (e0 := Int_part (ln a / ln 10)) in *. destruct (exponent_bounds a A) as [L U]. fold e0 in L, U.
  set (y := (a * powerRZ 10 (12 - e0))%R) in *.
  pose proof (pow10 (12 - e0)) as P.
  assert (P12 : (powerRZ 10 e0 * powerRZ 10 (12 - e0) = IZR (10 ^ 12))%R).
  { rewrite <- powerRZ_add by lra. replace (e0 + (12 - e0)) with 12 by lia.
    unfold powerRZ. change (Pos.to_nat 12) with 12%nat. rewrite pow_IZR. reflexivity. }
  assert (P13 : (powerRZ 10 (e0 + 1) * powerRZ 10 (12 - e0) = IZR (10 ^ 13))%R).
  { rewrite <- powerRZ_add by lra. replace (e0 + 1 + (12 - e0)) with 13 by lia.
    unfold powerRZ. change (Pos.to_nat 13) with 13%nat. rewrite pow_IZR. reflexivity. }
  assert (Y1 : (IZR (10 ^ 12) <= y)%R) by (rewrite <- P12; apply Rmult_le_compat_r; lra).
  assert (Y2 : (y < IZR (10 ^ 13))%R) by (rewrite <- P13; apply Rmult_lt_compat_r; lra).
  pose proof (round_between y _ _ Y1 Y2) as RB. pose proof (round_bounds y) as RD.
  assert (BACK : (y * powerRZ 10 (e0 - 12) = a)%R).
  { unfold y. rewrite Rmult_assoc, <- powerRZ_add by lra. replace (12 - e0 + (e0 - 12)) with 0 by lia. cbn. lra. }
  assert (ERR : (Rabs (IZR (round_even y) * powerRZ 10 (e0 - 12) - a) <= 5 * / 10 ^ 13 * a)%R).
  { rewrite <- BACK at 1. rewrite <- Rmult_minus_distr_r, Rabs_mult.
    rewrite (Rabs_right (powerRZ 10 (e0 - 12))) by (left; apply pow10).
    apply Rle_trans with (/ 2 * powerRZ 10 (e0 - 12))%R; [apply Rmult_le_compat_r; [left; apply pow10|exact RD]|].
    replace (5 * / 10 ^ 13)%R with (/ 2 * / 1000000000000)%R by lra.
    rewrite Rmult_assoc. apply Rmult_le_compat_l; [lra|].
    rewrite <- BACK. rewrite <- Rmult_assoc. rewrite <- (Rmult_1_l (powerRZ 10 (e0 - 12))) at 1.
    apply Rmult_le_compat_r; [left; apply pow10|].
    assert (1000000000000 <= y)%R by exact Y1. lra. }
  destruct (Z.eqb_spec (round_even y) (10 ^ 13)) as [E|E]; injection S as <- <-.
  - split; [lia|].
    assert (Q : (IZR (10 ^ 12) * powerRZ 10 (e0 + 1 - 12) = IZR (round_even y) * powerRZ 10 (e0 - 12))%R).
    { replace (e0 + 1 - 12) with (e0 - 12 + 1) by lia. rewrite powerRZ_add by lra. rewrite E.
      replace (IZR (10 ^ 13)) with (10000000000000)%R by reflexivity.
      replace (IZR (10 ^ 12)) with (1000000000000)%R by reflexivity. rewrite powerRZ_1. lra. }
    change (Z.pow_pos 10 12) with (10 ^ 12). rewrite Q. exact ERR.
  - split; [lia|exact ERR].
Qed.

(** ** Reading a float *)
Definition mantissa (m e : Z) : text :=
  fixed 1 (m / 10 ^ 12) ++ ["."%char] ++ fixed 12 m
  ++ ["e"%char; if e <? 0 then "-"%char else "+"%char]
  ++ fixed (Nat.max 2 (digits (Z.abs e))) (Z.abs e).

Lemma exponent_read : forall e,
  signed ((if e <? 0 then "-"%char else "+"%char) :: fixed (Nat.max 2 (digits (Z.abs e))) (Z.abs e)) = Some e.
Proof.
  intro e. set (k := Nat.max 2 (digits (Z.abs e))).
  assert (U : unsigned (fixed k (Z.abs e)) = Some (Z.abs e)).
  { rewrite unsigned_fixed by lia. rewrite Z.mod_small; [reflexivity|]. split; [lia|].
    eapply Z.lt_le_trans; [apply digits_bound; lia|]. apply Z.pow_le_mono_r; lia. }
  destruct (Z.ltb_spec e 0); unfold signed; cbn [Ascii.eqb Bool.eqb]; rewrite U; cbn [option_map]; f_equal; lia.
Qed.

Lemma mantissa_read : forall m e, 0 <= m < 10 ^ 13 ->
  unsigned_float (mantissa m e) = Some (IZR m * powerRZ 10 (e - 12))%R.
Proof.
  intros m e M. unfold unsigned_float, mantissa.
  assert (D1 : ~ In "."%char (fixed 1 (m / 10 ^ 12))).
  { apply digits_not_in; [apply fixed_digits|]. vm_compute. intuition discriminate. }
  assert (D2 : ~ In "e"%char (fixed 12 m)).
  { apply digits_not_in; [apply fixed_digits|]. vm_compute. intuition discriminate. }
  change (["."%char] ++ ?x) with ("."%char :: x).
  rewrite upto_split, after_split by exact D1. cbv zeta.
  change (["e"%char; ?y] ++ ?x) with ("e"%char :: y :: x).
  rewrite upto_split, after_split by exact D2.
  rewrite exponent_read. rewrite !unsigned_fixed by (try lia; apply Z.div_pos; lia).
  rewrite fixed_length. f_equal.
  change (10 ^ Z.of_nat 1) with 10. change (Z.of_nat 12) with 12.
  rewrite (Z.mod_small (m / 10 ^ 12) 10).
  2: { split; [apply Z.div_pos; lia|]. apply Z.div_lt_upper_bound; lia. }
  replace (e - 12) with (- (12) + e) by lia. rewrite powerRZ_add by lra. rewrite <- Rmult_assoc. f_equal.
  pose proof (Z.div_mod m (10 ^ 12) ltac:(lia)) as DM. rewrite DM at 3.
  rewrite plus_IZR, mult_IZR, Rmult_plus_distr_r. f_equal.
  assert (Q : (powerRZ 10 (- (12)) = / IZR (10 ^ 12))%R).
  { cbn [Z.opp]. unfold powerRZ. change (Pos.to_nat 12) with 12%nat. rewrite pow_IZR. reflexivity. }
  rewrite Q. field. apply not_0_IZR. discriminate.
Qed.

Lemma mantissa_not_int : forall m e, unsigned (mantissa m e) = None.
Proof.
  intros m e. apply unsigned_nondigit with (c := "."%char); [|reflexivity].
  unfold mantissa. apply in_or_app. right. left. reflexivity.
Qed.
Lemma mantissa_head : forall m e, exists c s, mantissa m e = c :: s /\ is_digit c = true.
Proof.
  intros m e. unfold mantissa. pose proof (fixed_digits 1 (m / 10 ^ 12)) as D.
  pose proof (fixed_nonempty 1 (m / 10 ^ 12) ltac:(lia)) as N.
  destruct (fixed 1 (m / 10 ^ 12)) as [|c s]; [contradiction|]. cbn [forallb] in D. apply andb_true_iff in D.
  exists c. eexists. split; [reflexivity|apply D].
Qed.

Lemma str_real_shape : forall x, exists m e, 0 <= m < 10 ^ 13
  /\ str_real x = (if Rlt_dec x 0 then ["-"%char] else []) ++ mantissa m e
  /\ (Rabs (IZR m * powerRZ 10 (e - 12) - Rabs x) <= 5 * / 10 ^ 13 * Rabs x)%R.
Proof.
  intro x. unfold str_real. destruct (Req_EM_T x 0) as [->|N].
  - exists 0, 0. split; [lia|]. split; [reflexivity|]. rewrite Rabs_R0, Rmult_0_l, Rminus_0_r, Rabs_R0. lra.
  - destruct (sci x) as [m e] eqn:S. destruct (sci_spec x m e N S) as [B E].
    exists m, e. split; [lia|]. split; [reflexivity|exact E].
Qed.

Lemma to_cell_real : forall x, exists r, to_cell (str_real x) = CFloat r
  /\ (Rabs (r - x) <= 5 * / 10 ^ 13 * Rabs x)%R.
Proof.
  intro x. destruct (str_real_shape x) as (m & e & M & S & E). rewrite S.
  destruct (Rlt_dec x 0) as [L|L].
  - exists (- (IZR m * powerRZ 10 (e - 12)))%R. split.
    + unfold to_cell. cbn [app signed signed_float Ascii.eqb Bool.eqb].
      rewrite mantissa_not_int, mantissa_read by exact M. reflexivity.
    + rewrite (Rabs_left x) in E at 1 by exact L.
      replace (- (IZR m * powerRZ 10 (e - 12)) - x)%R with (- (IZR m * powerRZ 10 (e - 12) - - x))%R by ring.
      rewrite Rabs_Ropp. exact E.
  - exists (IZR m * powerRZ 10 (e - 12))%R. split.
    + destruct (mantissa_head m e) as (c & s & H & D). cbn [app].
      unfold to_cell, signed, signed_float. rewrite H.
      destruct (Ascii.eqb_spec c "-"%char) as [->|_]; [discriminate|].
      destruct (Ascii.eqb_spec c "+"%char) as [->|_]; [discriminate|].
      rewrite <- H, mantissa_not_int, mantissa_read by exact M. reflexivity.
    + rewrite (Rabs_right x) in E at 1 by lra. exact E.
Qed.

(** ** Words *)
Lemma letter_not_digit : forall c, letter c -> is_digit c = false.
Proof.
  intros c H. unfold is_digit. unfold letter in H.
  destruct (Z.leb_spec (code c) 57); [lia|]. apply andb_false_r.
Qed.
Lemma to_cell_word : forall s, plain_word s -> to_cell s = CText s.
Proof.
  intros s ((c & s' & E & L) & H & N). unfold to_cell.
  pose proof (letter_not_digit c L) as D.
  assert (NM : c <> "-"%char) by (intros ->; unfold letter in L; vm_compute in L; intuition congruence).
  assert (NP : c <> "+"%char) by (intros ->; unfold letter in L; vm_compute in L; intuition congruence).
  assert (ND : c <> "."%char) by (intros ->; unfold letter in L; vm_compute in L; intuition congruence).
  assert (S : signed s = None).
  { rewrite E. unfold signed. destruct (Ascii.eqb_spec c "-"%char); [contradiction|].
    destruct (Ascii.eqb_spec c "+"%char); [contradiction|].
    apply unsigned_nondigit with (c := c); [left; reflexivity|exact D]. }
  assert (F : signed_float s = None).
  { rewrite E. unfold signed_float. destruct (Ascii.eqb_spec c "-"%char); [contradiction|].
    destruct (Ascii.eqb_spec c "+"%char); [contradiction|].
    unfold unsigned_float. destruct (after "."%char (c :: s')); [|reflexivity]. cbv zeta.
    rewrite (unsigned_nondigit (upto "."%char (c :: s')) c); [reflexivity| |exact D].
    cbn [upto]. destruct (Ascii.eqb_spec c "."%char); [contradiction|]. left. reflexivity. }
  rewrite S, F. destruct (existsb (text_eqb s) special_words) eqn:X; [|reflexivity].
  exfalso. apply existsb_exists in X. destruct X as (t & T & Q). apply text_eqb_spec in Q. subst t. contradiction.
Qed.

(** ** Shown values contain neither blanks nor [#] *)
Definition bad (c : ascii) : bool := orb (is_space c) (Ascii.eqb c "#"%char).
Lemma bad_blank : forall c, bad c = false -> blank c = false /\ c <> "#"%char /\ is_space c = false.
Proof.
  intros c H. unfold bad in H. apply orb_false_iff in H. destruct H as [A B].
  split; [|split; [apply Ascii.eqb_neq; exact B|exact A]].
  unfold blank. unfold is_space in A. apply orb_false_iff in A. destruct A as [A1 A2].
  apply orb_false_iff in A1. destruct A1 as [A1 A3]. apply andb_false_iff in A1, A3.
  destruct (Z.eqb_spec (code c) 32) as [E|E].
  { rewrite E in *. cbn in *. intuition discriminate. }
  destruct (Z.eqb_spec (code c) 9) as [E'|E']; [|reflexivity].
  rewrite E' in *. cbn in *. intuition discriminate.
Qed.
Lemma digit_fine : forall c, is_digit c = true -> bad c = false.
Proof.
  intros c H. pose proof (digit_code c H). unfold bad, is_space.
  destruct (Z.leb_spec (code c) 13); [lia|]. destruct (Z.leb_spec (code c) 32); [lia|].
  destruct (Z.eqb_spec (code c) 133); [lia|]. destruct (Z.eqb_spec (code c) 160); [lia|].
  rewrite !andb_false_r. cbn. apply Ascii.eqb_neq. intros ->. vm_compute in H. discriminate.
Qed.
Lemma fixed_fine : forall k n, clean bad (fixed k n).
Proof. intros k n c I. apply digit_fine. pose proof (fixed_digits k n) as D. rewrite forallb_forall in D. apply D, I. Qed.
Lemma clean_app : forall sp a b, clean sp a -> clean sp b -> clean sp (a ++ b).
Proof. intros sp a b A B c I. apply in_app_or in I. destruct I; auto. Qed.
Lemma clean_cons : forall sp c b, sp c = false -> clean sp b -> clean sp (c :: b).
Proof. intros sp c b A B d [<-|I]; auto. Qed.
Lemma clean_nil : forall sp, clean sp [].
Proof. intros sp c []. Qed.
Lemma str_int_fine : forall z, clean bad (str_int z) /\ str_int z <> [].
Proof.
  intro z. unfold str_int. destruct (z <? 0).
  - split; [apply clean_cons; [reflexivity|apply fixed_fine]|discriminate].
  - split; [apply fixed_fine|apply fixed_nonempty, digits_pos].
Qed.
Lemma str_real_fine : forall x, clean bad (str_real x) /\ str_real x <> [].
Proof.
  intro x. destruct (str_real_shape x) as (m & e & _ & -> & _). split.
  - apply clean_app; [destruct (Rlt_dec x 0); [apply clean_cons; [reflexivity|]|]; apply clean_nil|].
    unfold mantissa. apply clean_app; [apply fixed_fine|].
    apply clean_app; [apply clean_cons; [reflexivity|apply clean_nil]|].
    apply clean_app; [apply fixed_fine|]. apply clean_app; [|apply fixed_fine].
    apply clean_cons; [reflexivity|]. apply clean_cons; [destruct (e <? 0); reflexivity|apply clean_nil].
  - destruct (mantissa_head m e) as (c & s & -> & _). destruct (Rlt_dec x 0); discriminate.
Qed.
Lemma show_fine : forall v, plain_scalar v -> clean bad (show v) /\ show v <> [].
Proof.
  intros [z|x|s] H; cbn [show plain_scalar] in *; [apply str_int_fine|apply str_real_fine|].
  destruct H as ((c & s' & E & _) & H & _). split; [|rewrite E; discriminate].
  intros d D. destruct (H d D) as (A & B & _). unfold bad. rewrite A. apply Ascii.eqb_neq. exact B.
Qed.
Lemma show_agrees : forall v, plain_scalar v -> agrees v (to_cell (show v)).
Proof.
  intros [z|x|s] H; cbn [show plain_scalar] in *.
  - rewrite to_cell_int. reflexivity.
  - destruct (to_cell_real x) as (r & -> & E). exact E.
  - rewrite to_cell_word by exact H. reflexivity.
Qed.

(** ** Data lines *)
Lemma entries_flatten : forall vals, flatten vals = entries vals.
Proof. reflexivity. Qed.
Lemma entries_plain : forall vals, Forall plain_value vals -> Forall plain_scalar (entries vals).
Proof.
  induction vals as [|[s|l] vals IH]; intros H; cbn [entries flat_map]; [constructor| |];
    inversion H; subst.
  - constructor; [assumption|apply IH; assumption].
  - apply Forall_app. split; [apply H2|apply IH; assumption].
Qed.
Lemma entries_nonempty : forall vals, Forall plain_value vals -> vals <> [] -> entries vals <> [].
Proof.
  intros [|[s|l] vals] H N; [contradiction|discriminate|]. inversion H; subst. cbn [entries flat_map].
  destruct H2 as [L _]. destruct l; [cbn in L; lia|discriminate].
Qed.

Lemma data_fields : forall vals, Forall plain_value vals ->
  fields (data_line vals) = map show (entries vals).
Proof.
  intros vals H. pose proof (entries_plain vals H) as P. rewrite Forall_forall in P.
  unfold fields, data_line. rewrite entries_flatten.
  assert (NH : ~ In "#"%char (" "%char :: join (map (fun v => rjust (width v) (show v)) (entries vals)))).
  { intros [E|I]; [discriminate|]. apply in_join in I. destruct I as [E|(w & W & I)]; [discriminate|].
    apply in_map_iff in W. destruct W as (v & <- & V). apply in_rjust in I. destruct I as [E|I]; [discriminate|].
    destruct (show_fine v (P v V)) as [C _]. apply C in I. apply bad_blank in I. destruct I as (_ & N & _). contradiction. }
  rewrite upto_absent by exact NH. cbn [split_at]. change (blank " "%char) with true. cbn iota.
  replace (map (fun v => rjust (width v) (show v)) (entries vals))
    with (map (fun p => rjust (fst p) (snd p)) (map (fun v => (width v, show v)) (entries vals)))
    by (rewrite map_map; reflexivity).
  rewrite split_join; [rewrite map_map; reflexivity|reflexivity|].
  intros p I. apply in_map_iff in I. destruct I as (v & <- & V). cbn [snd].
  destruct (show_fine v (P v V)) as [C N]. split; [exact N|]. intros c I. apply C in I. apply bad_blank in I. apply I.
Qed.
Lemma header_fields : forall hdr vals, fields (header_line hdr vals) = [].
Proof. reflexivity. Qed.
Lemma message_fields : forall caller s, fields (pr_line caller s) = [].
Proof. reflexivity. Qed.

(** ** The header *)
Lemma hdr_names : forall hdr vals,
  flat_map (fun p => hdr_str (fst p) (snd p)) (combine hdr vals) = column_names hdr vals.
Proof.
  assert (K : forall s l i, components s (Z.of_nat i) l
    = map (fun i => s ++ tx "(" ++ [ascii_of_nat (120 + i)] ++ tx ")") (seq i (List.length l))).
  { intros s l. induction l as [|a l IH]; intros i; [reflexivity|]. cbn [components List.length seq map].
    f_equal.
    - unfold chr. replace (Z.to_nat (120 + Z.of_nat i)) with (120 + i)%nat by lia. reflexivity.
    - replace (Z.of_nat i + 1) with (Z.of_nat (S i)) by lia. apply IH. }
  induction hdr as [|h hdr IH]; intros [|[s|l] vals]; try reflexivity.
  - cbn [combine flat_map fst snd hdr_str app column_names]. f_equal. apply IH.
  - cbn [combine flat_map fst snd hdr_str column_names]. rewrite (K h l 0%nat : components h 0 l = _), IH. reflexivity.
Qed.
Lemma names_length : forall hdr vals, List.length hdr = List.length vals ->
  List.length (column_names hdr vals) = List.length (entries vals).
Proof.
  induction hdr as [|h hdr IH]; intros [|[s|l] vals] H; try reflexivity; try discriminate; cbn in H; injection H as H.
  - cbn. f_equal. apply IH, H.
  - cbn [column_names entries flat_map]. rewrite !app_length, map_length, seq_length.
    f_equal. apply IH, H.
Qed.
Lemma names_plain : forall hdr vals, Forall plain_name hdr -> Forall plain_value vals ->
  Forall plain_name (column_names hdr vals).
Proof.
  induction hdr as [|h hdr IH]; intros [|[s|l] vals] H V; try constructor; inversion H; subst; inversion V; subst; auto.
  cbn [column_names]. apply Forall_app. split; [|apply IH; assumption].
  apply Forall_forall. intros n N. apply in_map_iff in N. destruct N as (i & <- & I). apply in_seq in I.
  destruct H4 as [[_ L] _]. destruct H2 as [HN _]. split.
  - intros c C. apply in_app_or in C. destruct C as [C|C]; [apply HN, C|].
    destruct C as [<-|[<-|[<-|[]]]]; [split; [reflexivity|discriminate]| |split; [reflexivity|discriminate]].
    assert (i < 13)%nat by lia.
    do 13 (destruct i as [|i]; [split; [reflexivity|discriminate]|]). lia.
  - intros s' E. rewrite !app_assoc in E. apply app_inj_tail in E. destruct E as [_ E]. discriminate.
Qed.

Definition numbered_names (l : list text) : list text := numbered 1 l.
Lemma numbered_in : forall l i w, 1 <= i -> In w (numbered i l) -> exists k n, 1 <= k /\ In n l /\ w = str_int k ++ ":"%char :: n.
Proof.
  induction l as [|s l IH]; intros i w L H; [contradiction|]. destruct H as [<-|H].
  - exists i, s. split; [exact L|]. split; [left; reflexivity|reflexivity].
  - destruct (IH (i + 1) w ltac:(lia) H) as (k & n & K & N & E). exists k, n. split; [exact K|]. split; [right; exact N|exact E].
Qed.
Lemma numbered_length : forall l i, List.length (numbered i l) = List.length l.
Proof. induction l as [|s l IH]; intros i; [reflexivity|]. cbn. f_equal. apply IH. Qed.

Lemma str_int_digits : forall k, 0 <= k -> forallb is_digit (str_int k) = true.
Proof. intros k K. unfold str_int. destruct (Z.ltb_spec k 0); [lia|]. apply fixed_digits. Qed.

Lemma lstrip_space_clean : forall s, clean is_space s -> lstrip_space s = s.
Proof. intros [|c s] H; [reflexivity|]. cbn. rewrite (H c (or_introl eq_refl)). reflexivity. Qed.
Lemma strip_space_clean : forall s, clean is_space s -> strip_space s = s.
Proof.
  intros s H. unfold strip_space. rewrite (lstrip_space_clean s H), lstrip_space_clean, rev_involutive; [reflexivity|].
  intros c I. apply H. apply in_rev. exact I.
Qed.

Lemma column_name_read : forall k n, 0 <= k -> plain_name n -> column_name (str_int k ++ ":"%char :: n) = Ret n.
Proof.
  intros k n K [H _]. unfold column_name. rewrite after_split.
  - rewrite upto_absent; [|intro I; apply H in I; destruct I as [_ I]; contradiction].
    rewrite strip_space_clean; [reflexivity|]. intros c C. apply H in C. apply C.
  - apply digits_not_in; [apply str_int_digits; exact K|]. vm_compute. intuition discriminate.
Qed.
Lemma column_names_read : forall l i, 1 <= i -> Forall plain_name l -> mapM column_name (numbered i l) = Ret l.
Proof.
  induction l as [|n l IH]; intros i I H; [reflexivity|]. inversion H; subst. cbn [numbered mapM].
  change (str_int i ++ [":"%char] ++ n) with (str_int i ++ ":"%char :: n).
  rewrite column_name_read by (assumption || lia). cbn [bind]. rewrite IH by (assumption || lia). reflexivity.
Qed.

Lemma lstrip_blanks : forall k s, lstrip (repeat " "%char k ++ s) = lstrip s.
Proof. intros k s. induction k as [|k IH]; [reflexivity|exact IH]. Qed.
Lemma lstrip_fixed : forall c s, in_strip c = false -> lstrip (c :: s) = c :: s.
Proof. intros c s H. cbn. rewrite H. reflexivity. Qed.
Lemma digit_not_strip : forall c, is_digit c = true -> in_strip c = false.
Proof.
  intros c H. pose proof (digit_code c H). unfold in_strip.
  destruct (Ascii.eqb_spec c "#"%char) as [->|_]; [discriminate|].
  destruct (Ascii.eqb_spec c " "%char) as [->|_]; [discriminate|].
  destruct (Z.eqb_spec (code c) 10); [lia|reflexivity].
Qed.

Lemma join_last : forall l w, l <> [] -> last l [] = w -> exists a, join l = a ++ w.
Proof.
  induction l as [|a l IH]; intros w N L; [contradiction|]. destruct l as [|b l].
  - exists []. cbn in *. congruence.
  - destruct (IH w ltac:(discriminate) L) as [x X].
    exists (a ++ [" "%char; " "%char] ++ x). change (join (a :: b :: l)) with (a ++ [" "%char; " "%char] ++ join (b :: l)).
    rewrite X, <- !app_assoc. reflexivity.
Qed.

Lemma strip_right : forall s c, in_strip c = false -> rev (lstrip (rev (s ++ [c]))) = s ++ [c].
Proof. intros s c H. rewrite rev_app_distr. cbn [rev app]. rewrite lstrip_fixed by exact H. rewrite <- rev_app_distr with (x := s) (y := [c]) at 1. apply rev_involutive. Qed.

Lemma header_read : forall hdr vals, List.length hdr = List.length vals -> vals <> [] ->
  Forall plain_name hdr -> Forall plain_value vals ->
  mapM column_name (split_at is_space (strip (header_line hdr vals)) []) = Ret (column_names hdr vals).
Proof.
  intros hdr vals LEN NE HN HV. pose proof (names_plain hdr vals HN HV) as NP.
  unfold header_line. cbv zeta. rewrite hdr_names, entries_flatten.
  pose proof (names_length hdr vals LEN) as NL. pose proof (entries_nonempty vals HV NE) as EN.
  set (names := column_names hdr vals) in *. set (ent := entries vals) in *.
  set (cols := map (fun p : scalar * text => (width (fst p), snd p)) (combine ent (numbered 1 names))).
  replace (map (fun p : scalar * text => rjust (width (fst p)) (snd p)) (combine ent (numbered 1 names)))
    with (map (fun p => rjust (fst p) (snd p)) cols) by (unfold cols; rewrite map_map; reflexivity).
  assert (SND : map snd cols = numbered 1 names).
  { unfold cols. rewrite map_map. cbn [snd].
    assert (G : forall (a : list scalar) (b : list text), List.length a = List.length b ->
      map (fun x : scalar * text => snd x) (combine a b) = b).
    { induction a as [|x a IH]; intros [|y b] E; try discriminate; [reflexivity|]. cbn. f_equal. apply IH. injection E; auto. }
    apply G. rewrite numbered_length. congruence. }
  assert (WORD : forall p, In p cols -> exists k n, 1 <= k /\ plain_name n /\ snd p = str_int k ++ ":"%char :: n).
  { intros p I. assert (In (snd p) (numbered 1 names)) by (rewrite <- SND; apply in_map; exact I).
    destruct (numbered_in names 1 (snd p) ltac:(lia) H) as (k & n & K & N & E). exists k, n. split; [exact K|].
    split; [|exact E]. rewrite Forall_forall in NP. apply NP, N. }
  assert (SPLIT : split_at is_space (join (map (fun p => rjust (fst p) (snd p)) cols)) [] = map snd cols).
  { apply split_join; [reflexivity|]. intros p I. destruct (WORD p I) as (k & n & K & [N _] & ->).
    split; [intro E; apply app_eq_nil in E; destruct E; discriminate|].
    apply clean_app; [|apply clean_cons; [reflexivity|intros c C; apply N in C; apply C]].
    intros c C. destruct (str_int_fine k) as [F _]. apply F in C. apply bad_blank in C. apply C. }
  assert (STRIP : split_at is_space (strip ("#"%char :: join (map (fun p => rjust (fst p) (snd p)) cols))) []
    = map snd cols).
  { destruct cols as [|[w0 t0] cols'] eqn:EC.
    { exfalso. apply EN. apply (f_equal (@List.length text)) in SND. rewrite numbered_length in SND. cbn in SND.
      destruct ent; [reflexivity|]. cbn in NL. lia. }
    rewrite <- SPLIT. rewrite <- EC in *.
    destruct (WORD (w0, t0)) as (k & n & K & PN & T0); [rewrite EC; left; reflexivity|]. cbn [snd] in T0.
    (* the right end *)
    set (ws := map (fun p => rjust (fst p) (snd p)) cols) in *.
    assert (WS : ws <> []) by (unfold ws; rewrite EC; discriminate).
    assert (LAST : exists a c, join ws = a ++ [c] /\ in_strip c = false).
    { destruct (join_last ws (last ws []) WS eq_refl) as [a A].
      assert (I : In (last ws []) ws).
      { destruct (exists_last WS) as (x & y & E). rewrite E, last_last. apply in_or_app. right. left. reflexivity. }
      unfold ws in I. apply in_map_iff in I. destruct I as (p & P & IP).
      destruct (WORD p IP) as (k' & n' & K' & [PN1 PN2] & E'). fold ws in P. unfold rjust in P. rewrite E' in P.
      destruct n' as [|d n'] using rev_ind.
      - exists (a ++ repeat " "%char (fst p - List.length (str_int k' ++ [":"%char])) ++ str_int k'), ":"%char.
        split; [|reflexivity]. rewrite A, <- P, <- !app_assoc. reflexivity.
      - exists (a ++ repeat " "%char (fst p - List.length (str_int k' ++ ":"%char :: n' ++ [d])) ++ str_int k' ++ ":"%char :: n'), d.
        split. { rewrite A, <- P. repeat (rewrite <- app_assoc; cbn [app]). reflexivity. }
        destruct (PN1 d) as [SP _]; [apply in_or_app; right; left; reflexivity|].
        unfold in_strip. destruct (Ascii.eqb_spec d "#"%char) as [->|_]; [exfalso; exact (PN2 n' eq_refl)|].
        destruct (Ascii.eqb_spec d " "%char) as [->|_]; [discriminate|].
        destruct (Z.eqb_spec (code d) 10) as [Q|_]; [|reflexivity]. unfold is_space in SP. rewrite Q in SP. discriminate. }
    destruct LAST as (a & c & JA & CS).
    (* the left end *)
    assert (HEAD : exists m d r, join ws = repeat " "%char m ++ d :: r /\ is_digit d = true).
    { pose proof (str_int_digits k ltac:(lia)) as SD. destruct (str_int_fine k) as [_ SN].
      destruct (str_int k) as [|d r] eqn:SK; [contradiction|]. cbn [forallb] in SD. apply andb_true_iff in SD.
      exists (w0 - List.length t0)%nat, d.
      unfold ws. rewrite EC. cbn [map fst snd]. destruct (map (fun p => rjust (fst p) (snd p)) cols') as [|y ys].
      - cbn [join]. unfold rjust. exists (r ++ ":"%char :: n). split; [|apply SD]. f_equal. exact T0.
      - change (join (rjust w0 t0 :: y :: ys)) with (rjust w0 t0 ++ [" "%char; " "%char] ++ join (y :: ys)).
        unfold rjust. exists ((r ++ ":"%char :: n) ++ [" "%char; " "%char] ++ join (y :: ys)).
        split; [|apply SD]. rewrite <- app_assoc. f_equal. rewrite T0. reflexivity. }
    destruct HEAD as (m & d & r & JH & DD).
    unfold strip. change (lstrip ("#"%char :: join ws)) with (lstrip (join ws)).
    rewrite JH, lstrip_blanks, lstrip_fixed by (apply digit_not_strip; exact DD).
    assert (DR : exists a', d :: r = a' ++ [c]).
    { destruct (exists_last (l := d :: r) ltac:(discriminate)) as (a' & c' & E). exists a'. rewrite E. f_equal.
      rewrite JA in JH. rewrite E, app_assoc in JH. apply app_inj_tail in JH. destruct JH as [_ ->]. reflexivity. }
    destruct DR as [a' DR]. rewrite DR, strip_right by exact CS. rewrite <- DR.
    rewrite split_blanks by reflexivity. reflexivity. }
  rewrite STRIP, SND. apply column_names_read; [lia|exact NP].
Qed.

(** ** Whole logs *)
Definition nonempty_row (r : list text) : bool := match r with [] => false | _ => true end.
Lemma expected_fields : forall n sep rs i p, Forall readable_request rs ->
  filter nonempty_row (map fields (expected n sep i p rs))
  = map (fun c => map show (entries (c_vals c))) (printed n i rs).
Proof.
  intros n sep rs. induction rs as [|[c|caller s|caller s] rs IH]; intros i p H; [reflexivity| | |];
    inversion H as [|? ? H1 H2]; subst.
  - cbn [expected printed]. destruct (due n i c); [|apply IH; exact H2].
    destruct H1 as ([L NE] & HN & HV).
    assert (D : forall l, filter nonempty_row (map fields ([data_line (c_vals c)] ++ l))
      = map show (entries (c_vals c)) :: filter nonempty_row (map fields l)).
    { intro l. cbn [app map filter]. rewrite (data_fields (c_vals c) HV).
      pose proof (entries_nonempty (c_vals c) HV NE). destruct (entries (c_vals c)); [contradiction|reflexivity]. }
    destruct (header_due sep p).
    + cbn [app map]. change (fields (header_line (c_hdr c) (c_vals c))) with (@nil text). cbn [filter nonempty_row].
      fold (app (A := text)). rewrite <- (IH (S i) (S p) H2). exact (D _).
    + cbn [app]. cbn [map]. rewrite <- (IH (S i) (S p) H2). exact (D _).
  - cbn [expected printed map]. rewrite message_fields. cbn [filter nonempty_row]. apply IH. exact H2.
  - cbn [expected printed map]. rewrite message_fields. cbn [filter nonempty_row]. apply IH. exact H2.
Qed.

Lemma expected_silent : forall n sep rs1 rs i p, expected n sep i p rs1 = [] ->
  expected n sep i p (rs1 ++ rs) = expected n sep (i + List.length rs1) p rs
  /\ printed n i (rs1 ++ rs) = printed n (i + List.length rs1) rs.
Proof.
  intros n sep rs1. induction rs1 as [|[c|caller s|caller s] rs1 IH]; intros rs i p H;
    [cbn; rewrite Nat.add_0_r; split; reflexivity| |discriminate|discriminate].
  cbn [expected printed app List.length] in *. destruct (due n i c).
  - destruct (header_due sep p); discriminate.
  - replace (i + S (List.length rs1))%nat with (S i + List.length rs1)%nat by lia. apply IH. exact H.
Qed.

Lemma read_expected : forall n sep rs1 c rs2, expected n sep 0 0 rs1 = [] ->
  due n (List.length rs1) c = true -> readable c -> Forall readable_request rs2 ->
  exists rows,
    read_convergence_log (expected n sep 0 0 (rs1 ++ Status c :: rs2))
    = Ret (column_names (c_hdr c) (c_vals c), rows)
    /\ Forall2 (fun c r => Forall2 agrees (entries (c_vals c)) r)
         (printed n 0 (rs1 ++ Status c :: rs2)) rows.
Proof.
  intros n sep rs1 c rs2 S D RC RS.
  destruct (expected_silent n sep rs1 (Status c :: rs2) 0 0 S) as [E P]. rewrite E, P. cbn [Nat.add].
  set (k := List.length rs1) in *.
  assert (RR : Forall readable_request (Status c :: rs2)) by (constructor; assumption).
  pose proof (expected_fields n sep (Status c :: rs2) k 0 RR) as F.
  unfold read_convergence_log. cbv zeta.
  assert (HD : hd [] (expected n sep k 0 (Status c :: rs2)) = header_line (c_hdr c) (c_vals c)).
  { cbn [expected]. rewrite D. unfold header_due. rewrite Zmod_0_l. rewrite orb_true_r. reflexivity. }
  rewrite HD. destruct RC as ([L NE] & HN & HV). rewrite (header_read _ _ L NE HN HV). cbn [bind].
  eexists. split; [reflexivity|].
  change (fun r : list text => match r with [] => false | _ :: _ => true end) with nonempty_row.
  rewrite F. clear F HD E P.
  assert (ALL : Forall readable (printed n k (Status c :: rs2))).
  { clear - RR. generalize k. clear k. induction (Status c :: rs2) as [|[c'|? ?|? ?] l IH]; intros k; [constructor| | |];
      inversion RR; subst; cbn [printed].
    - destruct (due n k c'); [constructor; [assumption|]|]; apply IH; assumption.
    - apply IH; assumption.
    - apply IH; assumption. }
  induction ALL as [|c' l R' _ IH]; [constructor|]. cbn [map]. constructor; [|exact IH].
  destruct R' as (_ & _ & V). apply entries_plain in V. clear - V.
  induction V as [|v l V _ IH]; [constructor|]. cbn [map]. constructor; [apply show_agrees; exact V|exact IH].
Qed.
