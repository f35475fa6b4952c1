(** * Proofs about text maps *)
From Coq Require Import Reals ZArith Lia Lra List Bool Ascii String.
From Coq Require Import Floats.SpecFloat.
From Flocq Require Import Core.Zaux Core.Digits.
From Verif Require Import Py HalfSpace_Model Systems_Model HardWall_Model Float_IEEE Float_Double.
From Verif Require Import Logger_Model Logger_Spec Logger_Proofs Logger_Files Logger_Read TextMap_Model TextMap_Spec.
From Coq Require Import List.
Import ListNotations.
Local Open Scope string_scope.
Local Open Scope list_scope.
Local Open Scope Z_scope.

(** ** Decimal numbers with 19 digits *)
Lemma sci18_spec : forall a m e, (0 < a)%R -> sci18 a = (m, e) ->
  10 ^ 18 <= m < 10 ^ 19 /\ (Rabs (IZR m * powerRZ 10 (e - 18) - a) <= 5 * / 10 ^ 19 * a)%R.
Proof.
  intros a m e A S. unfold sci18 in S. cbv zeta in S.
  set (e0 := Int_part (ln a / ln 10)) in *. destruct (exponent_bounds a A) as [L U]. fold e0 in L, U.
  set (y := (a * powerRZ 10 (18 - e0))%R) in *.
  pose proof (pow10 (18 - e0)) as P.
  assert (P12 : (powerRZ 10 e0 * powerRZ 10 (18 - e0) = IZR (10 ^ 18))%R).
  { rewrite <- powerRZ_add by lra. replace (e0 + (18 - e0)) with 18 by lia.
    unfold powerRZ. change (Pos.to_nat 18) with 18%nat. rewrite pow_IZR. reflexivity. }
  assert (P13 : (powerRZ 10 (e0 + 1) * powerRZ 10 (18 - e0) = IZR (10 ^ 19))%R).
  { rewrite <- powerRZ_add by lra. replace (e0 + 1 + (18 - e0)) with 19 by lia.
    unfold powerRZ. change (Pos.to_nat 19) with 19%nat. rewrite pow_IZR. reflexivity. }
  assert (Y1 : (IZR (10 ^ 18) <= y)%R) by (rewrite <- P12; apply Rmult_le_compat_r; lra).
  assert (Y2 : (y < IZR (10 ^ 19))%R) by (rewrite <- P13; apply Rmult_lt_compat_r; lra).
  pose proof (round_between y _ _ Y1 Y2) as RB. pose proof (round_bounds y) as RD.
  assert (BACK : (y * powerRZ 10 (e0 - 18) = a)%R).
  { unfold y. rewrite Rmult_assoc, <- powerRZ_add by lra. replace (18 - e0 + (e0 - 18)) with 0 by lia. cbn. lra. }
  assert (ERR : (Rabs (IZR (round_even y) * powerRZ 10 (e0 - 18) - a) <= 5 * / 10 ^ 19 * a)%R).
  { rewrite <- BACK at 1. rewrite <- Rmult_minus_distr_r, Rabs_mult.
    rewrite (Rabs_right (powerRZ 10 (e0 - 18))) by (left; apply pow10).
    apply Rle_trans with (/ 2 * powerRZ 10 (e0 - 18))%R; [apply Rmult_le_compat_r; [left; apply pow10|exact RD]|].
    replace (5 * / 10 ^ 19)%R with (/ 2 * / 1000000000000000000)%R by lra.
    rewrite Rmult_assoc. apply Rmult_le_compat_l; [lra|].
    rewrite <- BACK. rewrite <- Rmult_assoc. rewrite <- (Rmult_1_l (powerRZ 10 (e0 - 18))) at 1.
    apply Rmult_le_compat_r; [left; apply pow10|].
    assert (1000000000000000000 <= y)%R by exact Y1. lra. }
  destruct (Z.eqb_spec (round_even y) (10 ^ 19)) as [E|E]; injection S as <- <-.
  - split; [lia|].
    assert (Q : (IZR (10 ^ 18) * powerRZ 10 (e0 + 1 - 18) = IZR (round_even y) * powerRZ 10 (e0 - 18))%R).
    { replace (e0 + 1 - 18) with (e0 - 18 + 1) by lia. rewrite powerRZ_add by lra. rewrite E.
      replace (IZR (10 ^ 19)) with (10000000000000000000)%R by reflexivity.
      replace (IZR (10 ^ 18)) with (1000000000000000000)%R by reflexivity. rewrite powerRZ_1. lra. }
    change (Z.pow_pos 10 18) with (10 ^ 18). rewrite Q. exact ERR.
  - split; [lia|exact ERR].
Qed.

Definition mantissa18 (m e : Z) : text :=
  fixed 1 (m / 10 ^ 18) ++ ["."%char] ++ fixed 18 m
  ++ ["e"%char; if e <? 0 then "-"%char else "+"%char]
  ++ fixed (Nat.max 2 (digits (Z.abs e))) (Z.abs e).

Lemma mantissa18_read : forall m e, 0 <= m < 10 ^ 19 ->
  unsigned_float (mantissa18 m e) = Some (IZR m * powerRZ 10 (e - 18))%R.
Proof.
  intros m e M. unfold unsigned_float, mantissa18.
  assert (D1 : ~ In "."%char (fixed 1 (m / 10 ^ 18))).
  { apply digits_not_in; [apply fixed_digits|]. vm_compute. intuition discriminate. }
  assert (D2 : ~ In "e"%char (fixed 18 m)).
  { apply digits_not_in; [apply fixed_digits|]. vm_compute. intuition discriminate. }
  change (["."%char] ++ ?x) with ("."%char :: x).
  rewrite upto_split, after_split by exact D1. cbv zeta.
  change (["e"%char; ?y] ++ ?x) with ("e"%char :: y :: x).
  rewrite upto_split, after_split by exact D2.
  rewrite exponent_read. rewrite !unsigned_fixed by (try lia; apply Z.div_pos; lia).
  rewrite fixed_length. f_equal.
  change (10 ^ Z.of_nat 1) with 10. change (Z.of_nat 18) with 18.
  rewrite (Z.mod_small (m / 10 ^ 18) 10).
  2: { split; [apply Z.div_pos; lia|]. apply Z.div_lt_upper_bound; lia. }
  replace (e - 18) with (- (18) + e) by lia. rewrite powerRZ_add by lra. rewrite <- Rmult_assoc. f_equal.
  pose proof (Z.div_mod m (10 ^ 18) ltac:(lia)) as DM. rewrite DM at 3.
  rewrite plus_IZR, mult_IZR, Rmult_plus_distr_r. f_equal.
  assert (Q : (powerRZ 10 (- (18)) = / IZR (10 ^ 18))%R).
  { cbn [Z.opp]. unfold powerRZ. change (Pos.to_nat 18) with 18%nat. rewrite pow_IZR. reflexivity. }
  rewrite Q. field. apply not_0_IZR. discriminate.
Qed.
Lemma mantissa18_not_int : forall m e, unsigned (mantissa18 m e) = None.
Proof.
  intros m e. apply unsigned_nondigit with (c := "."%char); [|reflexivity].
  unfold mantissa18. apply in_or_app. right. left. reflexivity.
Qed.
Lemma mantissa18_head : forall m e, exists c s, mantissa18 m e = c :: s /\ is_digit c = true.
Proof.
  intros m e. unfold mantissa18. pose proof (fixed_digits 1 (m / 10 ^ 18)) as D.
  pose proof (fixed_nonempty 1 (m / 10 ^ 18) ltac:(lia)) as N.
  destruct (fixed 1 (m / 10 ^ 18)) as [|c s]; [contradiction|]. cbn [forallb] in D. apply andb_true_iff in D.
  exists c. eexists. split; [reflexivity|apply D].
Qed.

Lemma fmt_e_shape : forall neg a, (0 <= a)%R -> exists m e, 0 <= m < 10 ^ 19
  /\ fmt_e neg a = (if neg then ["-"%char] else []) ++ mantissa18 m e
  /\ (Rabs (IZR m * powerRZ 10 (e - 18) - a) <= 5 * / 10 ^ 19 * a)%R.
Proof.
  intros neg a A. unfold fmt_e. destruct (Req_EM_T a 0) as [->|N].
  - exists 0, 0. split; [lia|]. split; [reflexivity|]. rewrite !Rmult_0_l, Rminus_0_r, Rabs_R0. lra.
  - destruct (sci18 a) as [m e] eqn:S. destruct (sci18_spec a m e ltac:(lra) S) as [B E].
    exists m, e. split; [lia|]. split; [reflexivity|exact E].
Qed.

Lemma fmt_e_decimal : forall neg a, (0 <= a)%R -> exists r, decimal (fmt_e neg a) = Some (neg, r)
  /\ (Rabs (r - a) <= 5 * / 10 ^ 19 * a)%R.
Proof.
  intros neg a A. destruct (fmt_e_shape neg a A) as (m & e & M & S & E). rewrite S.
  exists (IZR m * powerRZ 10 (e - 18))%R. split; [|exact E].
  assert (G : magnitude (mantissa18 m e) = Some (IZR m * powerRZ 10 (e - 18))%R).
  { unfold magnitude. rewrite mantissa18_not_int. apply mantissa18_read, M. }
  destruct neg; cbn [app]; unfold decimal.
  - cbn [Ascii.eqb Bool.eqb]. rewrite G. reflexivity.
  - destruct (mantissa18_head m e) as (c & s & H & D). rewrite H.
    destruct (Ascii.eqb_spec c "-"%char) as [->|_]; [discriminate|]. rewrite <- H, G. reflexivity.
Qed.

(** ** Which characters are written *)
Definition plain (t : text) : Prop := t <> [] /\ forall c, In c t -> is_space c = false /\ c <> "#"%char.
Lemma plain_app : forall s t, plain s -> plain t -> plain (s ++ t).
Proof.
  intros s t [A B] [_ D]. split; [destruct s; [contradiction|discriminate]|].
  intros c I. apply in_app_or in I. destruct I; auto.
Qed.
Lemma plain_digits : forall s, s <> [] -> forallb is_digit s = true -> plain s.
Proof.
  intros s N H. split; [exact N|]. intros c I. rewrite forallb_forall in H. pose proof (digit_code c (H c I)) as D. split.
  - unfold is_space. destruct (Z.leb_spec (code c) 13); [lia|]. destruct (Z.leb_spec (code c) 32); [lia|].
    destruct (Z.eqb_spec (code c) 133); [lia|]. destruct (Z.eqb_spec (code c) 160); [lia|]. rewrite !andb_false_r. reflexivity.
  - intros ->. vm_compute in D. intuition congruence.
Qed.
Lemma plain_const : forall s, s <> [] -> forallb (fun c => andb (negb (is_space c)) (negb (Ascii.eqb c "#"%char))) s = true -> plain s.
Proof.
  intros s N H. split; [exact N|]. intros c I. rewrite forallb_forall in H. specialize (H c I). apply andb_true_iff in H. destruct H as [A B].
  apply negb_true_iff in A, B. split; [exact A|]. intros ->. rewrite Ascii.eqb_refl in B. discriminate.
Qed.
Lemma plain_mantissa18 : forall m e, plain (mantissa18 m e).
Proof.
  intros m e. unfold mantissa18. apply plain_app; [apply plain_digits; [apply fixed_nonempty; lia|apply fixed_digits]|].
  apply plain_app; [apply plain_const; [discriminate|reflexivity]|].
  apply plain_app; [apply plain_digits; [apply fixed_nonempty; lia|apply fixed_digits]|].
  apply plain_app; [apply plain_const; [discriminate|destruct (e <? 0); reflexivity]|].
  apply plain_digits; [apply fixed_nonempty; lia|apply fixed_digits].
Qed.
Lemma plain_fmt_e : forall neg a, (0 <= a)%R -> plain (fmt_e neg a).
Proof.
  intros neg a A. destruct (fmt_e_shape neg a A) as (m & e & _ & -> & _). destruct neg; [|apply plain_mantissa18].
  apply plain_app; [apply plain_const; [discriminate|reflexivity]|apply plain_mantissa18].
Qed.
Lemma plain_double : forall x, plain (fmt_double x).
Proof.
  intro x. unfold fmt_double. destruct (raw x) as [s|[]| |s m e]; try (apply plain_const; [discriminate|reflexivity]).
  - apply plain_fmt_e. lra.
  - apply plain_fmt_e. apply Rmult_le_pos; [apply IZR_le; lia|left; apply powerRZ_lt; lra].
Qed.
Lemma plain_real : forall x, plain (fmt_real x).
Proof. intro x. apply plain_fmt_e, Rabs_pos. Qed.
Lemma plain_bool : forall b, plain (fmt_bool b).
Proof. intros []; (apply plain_const; [discriminate|reflexivity]). Qed.

(** ** Lines *)
Definition no_break (s : text) : Prop := forall c, In c s -> is_nl c = false.
Lemma lines_word : forall w acc rest, no_break w -> lines_of (w ++ rest) acc = lines_of rest (acc ++ w).
Proof.
  intros w. induction w as [|c w IH]; intros acc rest H; [rewrite app_nil_r; reflexivity|].
  cbn [app lines_of]. rewrite (H c (or_introl eq_refl)), IH by (intros d D; apply H; right; exact D).
  rewrite <- app_assoc. reflexivity.
Qed.
Lemma lines_one : forall w rest, no_break w -> lines_of (w ++ nl :: rest) [] = w :: lines_of rest [].
Proof. intros w rest H. rewrite lines_word by exact H. reflexivity. Qed.

Lemma split_blank_words : forall l, l <> [] -> (forall w, In w l -> plain w) ->
  split_at is_space (joined (tx " ") l) [] = l.
Proof.
  induction l as [|w l IH]; intros NE H; [contradiction|].
  destruct (H w (or_introl eq_refl)) as [NW CW].
  assert (CL : clean is_space w) by (intros c I; apply (CW c I)).
  destruct l as [|v l].
  - cbn [joined]. rewrite <- (app_nil_r w) at 1. rewrite split_word by exact CL. cbn [app split_at]. destruct w; [contradiction|reflexivity].
  - change (joined (tx " ") (w :: v :: l)) with (w ++ " "%char :: joined (tx " ") (v :: l)).
    rewrite split_word by exact CL. cbn [app split_at]. change (is_space " "%char) with true. cbn iota.
    destruct w as [|c w]; [contradiction|]. f_equal. apply IH; [discriminate|]. intros u I. apply H. right. exact I.
Qed.
Lemma in_joined : forall sep l c, In c (joined sep l) -> In c sep \/ exists w, In w l /\ In c w.
Proof.
  intros sep. induction l as [|a l IH]; intros c H; [contradiction|].
  destruct l as [|b l]; [right; exists a; split; [left; reflexivity|exact H]|].
  change (joined sep (a :: b :: l)) with (a ++ sep ++ joined sep (b :: l)) in H.
  apply in_app_or in H. destruct H as [H|H]; [right; exists a; split; [left; reflexivity|exact H]|].
  apply in_app_or in H. destruct H as [H|H]; [left; exact H|].
  destruct (IH c H) as [E|(w & W & I)]; [left; exact E|right; exists w; split; [right; exact W|exact I]].
Qed.
Lemma space_break : forall c, is_space c = false -> is_nl c = false.
Proof.
  intros c H. unfold is_space in H. unfold is_nl. apply orb_false_iff in H. destruct H as [H _]. apply orb_false_iff in H. destruct H as [H _].
  apply andb_false_iff in H. destruct (Z.eqb_spec (code c) 10) as [E|_]; [rewrite E in H; destruct H; discriminate|].
  destruct (Z.eqb_spec (code c) 13) as [E|_]; [rewrite E in H; destruct H; discriminate|]. reflexivity.
Qed.
Lemma row_line : forall r, r <> [] -> (forall w, In w r -> plain w) ->
  no_break (joined (tx " ") r) /\ line_fields (joined (tx " ") r) = r.
Proof.
  intros r N H.
  assert (C : forall c, In c (joined (tx " ") r) -> is_nl c = false /\ c <> "#"%char).
  { intros c I. destruct (in_joined _ _ _ I) as [[<-|[]]|(w & W & J)]; [split; [reflexivity|discriminate]|].
    destruct (H w W) as [_ Q]. destruct (Q c J). split; [apply space_break; assumption|assumption]. }
  split; [intros c I; apply (C c I)|]. unfold line_fields. rewrite upto_absent; [apply split_blank_words; assumption|].
  intro I. apply (C _ I). reflexivity.
Qed.

(** The lines of the comment. *)
Definition no_cr (h : text) : Prop := ~ In cr h.
Fixpoint comment_lines (h acc : text) : list text :=
  match h with
  | [] => [tx "# " ++ acc]
  | c :: h' => if Ascii.eqb c nl then (tx "# " ++ acc) :: comment_lines h' [] else comment_lines h' (acc ++ [c])
  end.
Lemma nl_only : forall c, c <> cr -> Ascii.eqb c nl = false -> is_nl c = false.
Proof.
  intros c N E. unfold is_nl. destruct (Z.eqb_spec (code c) 10) as [A|_].
  - exfalso. assert (c = nl) as ->; [|rewrite Ascii.eqb_refl in E; discriminate].
    unfold nl, chr. rewrite <- A. unfold code. rewrite Nat2Z.id. symmetry. apply ascii_nat_embedding.
  - destruct (Z.eqb_spec (code c) 13) as [A|_]; [|reflexivity]. exfalso. apply N.
    unfold cr, chr. rewrite <- A. unfold code. rewrite Nat2Z.id. symmetry. apply ascii_nat_embedding.
Qed.
Lemma lines_comment : forall b h acc rest, is_nl b = true -> no_cr h ->
  lines_of (commented h ++ b :: rest) (tx "# " ++ acc) = comment_lines h acc ++ lines_of rest [].
Proof.
  intros b h acc rest B. revert acc rest. induction h as [|c h IH]; intros acc rest H; [cbn; rewrite B; reflexivity|].
  assert (H' : no_cr h) by (intro I; apply H; right; exact I).
  unfold commented. cbn [flat_map comment_lines]. fold (commented h). destruct (Ascii.eqb c nl) eqn:E.
  - change ((nl :: tx "# ") ++ commented h) with (nl :: tx "# " ++ commented h).
    cbn [app lines_of]. change (is_nl nl) with true. cbn iota. f_equal.
    change (tx "# ") with ["#"%char; " "%char]. cbn [app lines_of].
    change (is_nl "#"%char) with false. change (is_nl " "%char) with false. cbn iota.
    exact (IH [] rest H').
  - cbn [app lines_of]. rewrite (nl_only c); [|intros ->; apply H; left; reflexivity|exact E].
    rewrite <- app_assoc. apply IH. exact H'.
Qed.
Lemma comment_fields : forall h acc l, In l (comment_lines h acc) -> line_fields l = [].
Proof.
  induction h as [|c h IH]; intros acc l H.
  - destruct H as [<-|[]]. reflexivity.
  - cbn [comment_lines] in H. destruct (Ascii.eqb c nl); [destruct H as [<-|H]; [reflexivity|]|]; eapply IH; exact H.
Qed.
Lemma lines_rows : forall rows, (forall r, In r rows -> r <> [] /\ forall w, In w r -> plain w) ->
  lines_of (flat_map (fun r => joined (tx " ") r ++ [nl]) rows) [] = map (joined (tx " ")) rows.
Proof.
  induction rows as [|r rows IH]; intros H; [reflexivity|]. cbn [flat_map map].
  destruct (H r (or_introl eq_refl)) as [N P]. destruct (row_line r N P) as [B _].
  rewrite <- app_assoc. cbn [app]. rewrite lines_one by exact B. f_equal. apply IH. intros q Q. apply H. right. exact Q.
Qed.
Lemma save_lines : forall h rows, no_cr h -> (forall r, In r rows -> r <> [] /\ forall w, In w r -> plain w) ->
  file_lines (savetxt h rows) = comment_lines h [] ++ map (joined (tx " ")) rows.
Proof.
  intros h rows H P. unfold file_lines, savetxt. change ([nl] ++ ?x) with (nl :: x).
  change (tx "# ") with ["#"%char; " "%char] at 1. cbn [app lines_of].
  change (is_nl "#"%char) with false. change (is_nl " "%char) with false. cbn iota.
  change ([] ++ ["#"%char] ++ [" "%char]) with (tx "# " ++ []). rewrite <- lines_rows by exact P.
  exact (lines_comment nl h [] _ eq_refl H).
Qed.
Lemma load_save : forall h rows, no_cr h -> (forall r, In r rows -> r <> [] /\ forall w, In w r -> plain w) ->
  loadtxt (savetxt h rows) = rows.
Proof.
  intros h rows H P. unfold loadtxt. change (lines_of ?x []) with (file_lines x). rewrite save_lines by assumption.
  rewrite map_app, filter_app.
  assert (A : forall l, (forall x, In x l -> line_fields x = []) -> filter (fun r : list text => match r with [] => false | _ => true end) (map line_fields l) = []).
  { induction l as [|x l IH]; intros Q; [reflexivity|]. cbn [map filter]. rewrite (Q x (or_introl eq_refl)). apply IH. intros y Y. apply Q. right. exact Y. }
  rewrite A by (intros x X; eapply comment_fields; exact X). cbn [app]. rewrite map_map. clear A H.
  induction rows as [|r rows IH]; [reflexivity|]. cbn [map filter]. destruct (P r (or_introl eq_refl)) as [N Q].
  destruct (row_line r N Q) as [_ F]. rewrite F. destruct r as [|w r]; [contradiction|]. f_equal. apply IH. intros q I. apply P. right. exact I.
Qed.

(** ** Doubles are far apart *)
Lemma double_shape : forall x s m e, raw x = S754_finite s m e ->
  (Zpos m < 2 ^ 53 /\ -1074 <= e <= 971 /\ (e = -1074 \/ 2 ^ 52 <= Zpos m)).
Proof.
  intros x s m e H. pose proof (raw_valid x) as V. rewrite H in V. cbn [valid_binary] in V.
  unfold bounded in V. apply andb_true_iff in V. destruct V as [C E]. apply Z.leb_le in E.
  unfold canonical_mantissa in C. apply Zeq_bool_eq in C.
  unfold fexp, emin in C. change (3 - 1024 - 53) with (-1074) in C. change (1024 - 53) with 971 in E.
  assert (D : Zpos (digits2_pos m) = Zdigits radix2 (Zpos m)) by apply Zpos_digits2_pos.
  pose proof (Zdigits_correct radix2 (Zpos m)) as Z0. rewrite <- D in Z0. change (radix_val radix2) with 2 in Z0.
  rewrite Z.abs_eq in Z0 by lia. set (d := Zpos (digits2_pos m)) in *.
  assert (DD : d <= 53) by lia. split.
  { eapply Z.lt_le_trans; [apply Z0|]. apply Z.pow_le_mono_r; lia. }
  split; [lia|]. destruct (Z.eq_dec e (-1074)); [left; assumption|right].
  assert (d = 53) by lia. rewrite H0 in Z0. apply Z0.
Qed.

Definition mag (x : D64) : R := Rabs (val64 x).
Lemma mag_finite : forall x s m e, raw x = S754_finite s m e -> mag x = (IZR (Zpos m) * powerRZ 2 e)%R.
Proof.
  intros x s m e H. unfold mag, val64. rewrite H. cbn [num64].
  assert (P : (0 <= IZR (Zpos m) * powerRZ 2 e)%R) by (apply Rmult_le_pos; [apply IZR_le; lia|left; apply powerRZ_lt; lra]).
  destruct s; [rewrite Ropp_mult_distr_l_reverse, Rabs_Ropp|]; apply Rabs_right; lra.
Qed.
Lemma mag_zero : forall x s, raw x = S754_zero s -> mag x = 0%R.
Proof. intros x s H. unfold mag, val64. rewrite H. apply Rabs_R0. Qed.

Lemma pow2_pos : forall z, (0 < powerRZ 2 z)%R.
Proof. intro z. apply powerRZ_lt. lra. Qed.
Lemma pow2_split : forall a b, (powerRZ 2 (a + b) = powerRZ 2 a * powerRZ 2 b)%R.
Proof. intros. apply powerRZ_add. lra. Qed.
Lemma pow2_Z : forall n, 0 <= n -> powerRZ 2 n = IZR (2 ^ n).
Proof. intros n H. rewrite <- (Z2Nat.id n) by exact H. rewrite <- pow_powerRZ. symmetry. rewrite <- pow_IZR. reflexivity. Qed.

Lemma p2 : forall n : nat, (2 ^ n = IZR (2 ^ Z.of_nat n))%R.
Proof. intro n. rewrite <- pow_IZR. reflexivity. Qed.

(** Two multiples of a common step. *)
Lemma multiples_apart : forall p q e, p <> q -> (powerRZ 2 e <= Rabs (IZR p * powerRZ 2 e - IZR q * powerRZ 2 e))%R.
Proof.
  intros p q e N. rewrite <- Rmult_minus_distr_r, Rabs_mult, (Rabs_right (powerRZ 2 e)) by (left; apply pow2_pos).
  rewrite <- (Rmult_1_l (powerRZ 2 e)) at 1. apply Rmult_le_compat_r; [left; apply pow2_pos|].
  rewrite <- minus_IZR, <- abs_IZR. apply IZR_le. lia.
Qed.

Lemma far_apart : forall x y, finD x -> finD y -> mag x <> mag y ->
  (/ 2 ^ 54 * mag x <= Rabs (mag x - mag y))%R.
Proof.
  intros x y FX FY N. unfold finD in FX, FY.
  destruct (raw x) as [s|s| |s m e] eqn:X; try contradiction.
  { rewrite (mag_zero x s X), Rmult_0_r. apply Rabs_pos. }
  rewrite (mag_finite x s m e X) in *. destruct (double_shape x s m e X) as (M & Ex & K).
  pose proof (pow2_pos e) as P. assert (Mp : (0 < IZR (Zpos m))%R) by (apply IZR_lt; lia).
  assert (MP : (0 < IZR (Zpos m) * powerRZ 2 e)%R) by (apply Rmult_lt_0_compat; assumption).
  assert (M53 : (IZR (Zpos m) <= 2 ^ 53)%R).
  { rewrite (p2 53). change (Z.of_nat 53) with 53. apply IZR_le. lia. }
  assert (UP : (IZR (Zpos m) * powerRZ 2 e <= 2 ^ 53 * powerRZ 2 e)%R) by (apply Rmult_le_compat_r; lra).
  assert (ST : (/ 2 ^ 54 * (IZR (Zpos m) * powerRZ 2 e) <= / 2 * powerRZ 2 e)%R).
  { apply Rle_trans with (/ 2 ^ 54 * (2 ^ 53 * powerRZ 2 e))%R; [apply Rmult_le_compat_l; [left; apply Rinv_0_lt_compat, pow_lt; lra|exact UP]|].
    right. field. }
  destruct (raw y) as [s'|s'| |s' m' e'] eqn:Y; try contradiction.
  { rewrite (mag_zero y s' Y), Rminus_0_r, Rabs_right by lra.
    assert (K2 : (/ 2 ^ 54 = / 18014398509481984)%R) by (f_equal; lra). rewrite K2. lra. }
  rewrite (mag_finite y s' m' e' Y) in *. destruct (double_shape y s' m' e' Y) as (M' & Ex' & K').
  destruct (Z_le_gt_dec e e') as [L|L].
  - (* both are multiples of the step of x *)
    assert (Q : (IZR (Zpos m') * powerRZ 2 e' = IZR (Zpos m' * 2 ^ (e' - e)) * powerRZ 2 e)%R).
    { rewrite mult_IZR, <- pow2_Z by lia. rewrite Rmult_assoc, <- pow2_split. f_equal. f_equal. lia. }
    rewrite Q in *. eapply Rle_trans; [exact ST|]. eapply Rle_trans; [|apply multiples_apart].
    + lra.
    + intros E. apply N. rewrite E. reflexivity.
  - assert (M52 : 2 ^ 52 <= Zpos m) by (destruct K; [lia|assumption]).
    set (b := (IZR (Zpos m') * powerRZ 2 e')%R) in *.
    assert (E1 : (powerRZ 2 e = 2 * powerRZ 2 (e - 1))%R).
    { replace e with (1 + (e - 1)) at 1 by lia. rewrite pow2_split, powerRZ_1. ring. }
    destruct (Z.eq_dec e' (e - 1)) as [E'|E'].
    + subst e'. assert (Q : (IZR (Zpos m) * powerRZ 2 e = IZR (Zpos m * 2) * powerRZ 2 (e - 1))%R) by (rewrite E1, mult_IZR; ring).
      rewrite Q in N |- *. eapply Rle_trans; [rewrite <- Q; exact ST|]. unfold b. eapply Rle_trans; [|apply multiples_apart].
      * rewrite E1. lra.
      * intros E. apply N. unfold b. rewrite E. reflexivity.
    + assert (B : (b <= / 2 * (IZR (Zpos m) * powerRZ 2 e))%R).
      { apply Rle_trans with (2 ^ 53 * powerRZ 2 (e - 2))%R.
        - unfold b. apply Rmult_le_compat; [apply IZR_le; lia|left; apply pow2_pos| |].
          + rewrite (p2 53). change (Z.of_nat 53) with 53. apply IZR_le. lia.
          + replace (e - 2) with (e' + (e - 2 - e')) by lia. rewrite pow2_split.
            rewrite <- (Rmult_1_r (powerRZ 2 e')) at 1. apply Rmult_le_compat_l; [left; apply pow2_pos|].
            rewrite pow2_Z by lia. apply IZR_le. pose proof (Z.pow_pos_nonneg 2 (e - 2 - e')). lia.
        - assert (E2 : (powerRZ 2 e = 4 * powerRZ 2 (e - 2))%R).
          { replace e with (2 + (e - 2)) at 1 by lia. rewrite pow2_split. change (powerRZ 2 2) with (2 * (2 * 1))%R. ring. }
          rewrite E2. assert (L52 : (2 ^ 52 <= IZR (Zpos m))%R).
          { rewrite (p2 52). change (Z.of_nat 52) with 52. apply IZR_le. exact M52. }
          replace (/ 2 * (IZR (Zpos m) * (4 * powerRZ 2 (e - 2))))%R with ((2 * IZR (Zpos m)) * powerRZ 2 (e - 2))%R by field.
          apply Rmult_le_compat_r; [left; apply pow2_pos|]. replace (2 ^ 53)%R with (2 * 2 ^ 52)%R by ring. lra. }
      assert (K2 : (/ 2 ^ 54 = / 18014398509481984)%R) by (f_equal; lra). rewrite K2. rewrite Rabs_right by lra. lra.
Qed.

(** A finite double of a given sign is known from its magnitude. *)
Lemma same_double : forall x y, finD x -> finD y -> sign x = sign y -> mag x = mag y -> x = y.
Proof.
  intros x y FX FY S M. unfold finD, sign in *.
  destruct (raw x) as [s|s| |s m e] eqn:X; try contradiction; destruct (raw y) as [s'|s'| |s' m' e'] eqn:Y; try contradiction; subst s'.
  - apply raw_inj. congruence.
  - exfalso. rewrite (mag_zero x s X), (mag_finite y _ _ _ Y) in M. pose proof (pow2_pos e'). assert (0 < IZR (Zpos m'))%R by (apply IZR_lt; lia). nra.
  - exfalso. rewrite (mag_zero y s Y), (mag_finite x _ _ _ X) in M. pose proof (pow2_pos e). assert (0 < IZR (Zpos m))%R by (apply IZR_lt; lia). nra.
  - rewrite (mag_finite x _ _ _ X), (mag_finite y _ _ _ Y) in M.
    destruct (double_shape x s m e X) as (A & B & K). destruct (double_shape y s m' e' Y) as (A' & B' & K').
    assert (E : e = e').
    { destruct (Z.lt_trichotomy e e') as [L|[E|L]]; [exfalso|exact E|exfalso].
      - assert (Q : (IZR (Zpos m') * powerRZ 2 e' = IZR (Zpos m' * 2 ^ (e' - e)) * powerRZ 2 e)%R).
        { rewrite mult_IZR, <- pow2_Z by lia. rewrite Rmult_assoc, <- pow2_split. f_equal. f_equal. lia. }
        rewrite Q in M. apply Rmult_eq_reg_r in M; [|pose proof (pow2_pos e); lra]. apply eq_IZR in M.
        destruct K' as [->|K']; [lia|]. assert (2 ^ 1 <= 2 ^ (e' - e)) by (apply Z.pow_le_mono_r; lia). nia.
      - assert (Q : (IZR (Zpos m) * powerRZ 2 e = IZR (Zpos m * 2 ^ (e - e')) * powerRZ 2 e')%R).
        { rewrite mult_IZR, <- pow2_Z by lia. rewrite Rmult_assoc, <- pow2_split. f_equal. f_equal. lia. }
        rewrite Q in M. apply Rmult_eq_reg_r in M; [|pose proof (pow2_pos e'); lra]. apply eq_IZR in M.
        destruct K as [->|K]; [lia|]. assert (2 ^ 1 <= 2 ^ (e - e')) by (apply Z.pow_le_mono_r; lia). nia. }
    subst e'. apply Rmult_eq_reg_r in M; [|pose proof (pow2_pos e); lra]. apply eq_IZR in M. injection M as <-. apply raw_inj. congruence.
Qed.

Lemma mag_bound : forall x, finD x -> (mag x <= 2 ^ 1024 - 2 ^ 971)%R.
Proof.
  intros x F. unfold finD in F.
  assert (P : (2 ^ 1024 = 2 ^ 53 * 2 ^ 971)%R) by (rewrite <- pow_add; reflexivity).
  assert (T : (0 < 2 ^ 971)%R) by (apply pow_lt; lra).
  assert (B53 : (2 ^ 53 = 9007199254740992)%R) by lra.
  destruct (raw x) as [s|s| |s m e] eqn:X; try contradiction.
  - rewrite (mag_zero x s X), P, B53. revert T. generalize (2 ^ 971)%R. intros. lra.
  - rewrite (mag_finite x s m e X). destruct (double_shape x s m e X) as (M & Ex & _).
    assert (U : (powerRZ 2 e <= 2 ^ 971)%R).
    { replace (2 ^ 971)%R with (powerRZ 2 971) by reflexivity.
      replace 971 with (e + (971 - e)) by lia. rewrite pow2_split. rewrite <- (Rmult_1_r (powerRZ 2 e)) at 1.
      apply Rmult_le_compat_l; [left; apply pow2_pos|]. rewrite pow2_Z by lia. apply IZR_le. pose proof (Z.pow_pos_nonneg 2 (971 - e)). lia. }
    assert (V : (IZR (Zpos m) <= 2 ^ 53 - 1)%R) by (rewrite B53; replace (9007199254740992 - 1)%R with (IZR (2 ^ 53 - 1)) by (vm_compute; lra); apply IZR_le; lia).
    assert (W : (IZR (Zpos m) * powerRZ 2 e <= (2 ^ 53 - 1) * 2 ^ 971)%R).
    { apply Rmult_le_compat; [apply IZR_le; lia|left; apply pow2_pos|exact V|exact U]. }
    rewrite P. revert W. generalize (2 ^ 971)%R (2 ^ 53)%R. intros. lra.
Qed.

(** ** Reading what was written *)
Lemma double_decimal : forall x, finD x -> exists r, decimal (fmt_double x) = Some (sign x, r)
  /\ (Rabs (r - mag x) <= 5 * / 10 ^ 19 * mag x)%R.
Proof.
  intros x F. unfold finD in F. unfold fmt_double, sign. destruct (raw x) as [s|s| |s m e] eqn:X; try contradiction.
  - rewrite (mag_zero x s X). apply fmt_e_decimal. lra.
  - rewrite (mag_finite x s m e X). apply fmt_e_decimal.
    apply Rmult_le_pos; [apply IZR_le; lia|left; apply pow2_pos].
Qed.
Lemma not_too_large : forall x r, finD x -> (Rabs (r - mag x) <= 5 * / 10 ^ 19 * mag x)%R -> (r < 2 ^ 1024 - 2 ^ 970)%R.
Proof.
  intros x r F E. pose proof (mag_bound x F) as B.
  assert (G0 : (0 <= mag x)%R) by apply Rabs_pos.
  assert (P : (2 ^ 1024 = 2 ^ 54 * 2 ^ 970)%R) by (rewrite <- pow_add; reflexivity).
  assert (P1 : (2 ^ 971 = 2 * 2 ^ 970)%R) by reflexivity.
  assert (T : (0 < 2 ^ 970)%R) by (apply pow_lt; lra).
  assert (B54 : (2 ^ 54 = 18014398509481984)%R) by lra.
  rewrite P, P1, B54 in *. revert T B. generalize (2 ^ 970)%R. intros q T B.
  assert (Q : (r - mag x <= 5 * / 10 ^ 19 * mag x)%R) by (eapply Rle_trans; [apply Rle_abs|exact E]).
  assert (K : (5 * / 10 ^ 19 = / 2000000000000000000)%R) by lra. rewrite K in Q. lra.
Qed.

Lemma read_finite : forall x, finD x -> forall y, reads (fmt_double x) y <-> y = x.
Proof.
  intros x F y. destruct (double_decimal x F) as (r & D & E). unfold reads. rewrite D.
  pose proof (not_too_large x r F E) as NL. set (lim := (2 ^ 1024 - 2 ^ 970)%R) in *. clearbody lim.
  assert (G0 : (0 <= mag x)%R) by apply Rabs_pos.
  assert (K : (5 * / 10 ^ 19 = / 2000000000000000000)%R) by lra. rewrite K in E.
  assert (K2 : (/ 2 ^ 54 = / 18014398509481984)%R) by (f_equal; lra).
  assert (NEAR : forall z, finD z -> mag z <> mag x -> (Rabs (mag x - r) < Rabs (mag z - r))%R).
  { intros z FZ N. pose proof (far_apart x z F FZ (not_eq_sym N)) as A. rewrite K2 in A.
    assert (0 < mag x \/ mag x = 0)%R as [GP|GZ] by lra.
    - assert (Rabs (mag x - mag z) <= Rabs (mag x - r) + Rabs (mag z - r))%R by (clear; split_Rabs; lra).
      rewrite (Rabs_minus_sym r) in E. lra.
    - rewrite GZ, Rmult_0_r in E. rewrite GZ in *. assert (r = 0)%R by (clear - E; split_Rabs; lra). subst r.
      rewrite !Rminus_0_r, Rabs_R0. apply Rabs_pos_lt. exact N. }
  split.
  - intros (S & [FY Q] & _); [assumption|]. destruct (Req_dec (mag y) (mag x)) as [M|M].
    + apply same_double; assumption.
    + specialize (NEAR y FY M). specialize (Q x F). change (Rabs (mag y - r) <= Rabs (mag x - r))%R in Q. lra.
  - intros ->. split; [reflexivity|]. split; [|intros; lra]. intros _. split; [exact F|]. intros z FZ.
    change (Rabs (mag x - r) <= Rabs (mag z - r))%R. destruct (Req_dec (mag z) (mag x)) as [M|M]; [rewrite M; lra|]. left. apply NEAR; assumption.
Qed.
Lemma read_infinite : forall x s, raw x = S754_infinity s -> forall y, reads (fmt_double x) y <-> y = x.
Proof.
  intros x s X y. unfold fmt_double. rewrite X. unfold reads.
  assert (D : decimal (if s then tx "-inf" else tx "inf") = None) by (destruct s; reflexivity).
  assert (H : (if s then tx "-inf" else tx "inf") = match S754_infinity s with S754_infinity false => tx "inf" | S754_infinity true => tx "-inf" | _ => [] end) by (destruct s; reflexivity).
  destruct s; rewrite D; split.
  - intros [[Q _]|[[Q _]|[_ Q]]]; try discriminate. apply raw_inj. congruence.
  - intros ->. right. right. split; [reflexivity|exact X].
  - intros [[Q _]|[[_ Q]|[Q _]]]; try discriminate. apply raw_inj. congruence.
  - intros ->. right. left. split; [reflexivity|exact X].
Qed.
Lemma read_double : forall x, ~ is_nan x -> forall y, reads (fmt_double x) y <-> y = x.
Proof.
  intros x N y. destruct (raw x) as [s|s| |s m e] eqn:X.
  - apply read_finite. unfold finD. rewrite X. exact I.
  - eapply read_infinite. exact X.
  - contradiction.
  - apply read_finite. unfold finD. rewrite X. exact I.
Qed.
Lemma read_nan : forall x y, is_nan x -> (reads (fmt_double x) y <-> is_nan y).
Proof.
  intros x y N. unfold fmt_double. rewrite N. unfold reads. change (decimal (tx "nan")) with (@None (bool * R)). cbn iota. split.
  - intros [[_ Q]|[[Q _]|[Q _]]]; [exact Q|discriminate|discriminate].
  - intros Q. left. split; [reflexivity|exact Q].
Qed.

Lemma read_row : forall r, (forall x, In x r -> ~ is_nan x) -> forall s, Forall2 reads (map fmt_double r) s <-> s = r.
Proof.
  induction r as [|x r IH]; intros H s; cbn [map].
  - split; [intros Q; inversion Q; reflexivity|intros ->; constructor].
  - assert (Hr : forall y, In y r -> ~ is_nan y) by (intros y Y; apply H; right; exact Y). split.
    + intros Q. inversion Q as [|? y ? s' A B]; subst. apply read_double in A; [|apply H; left; reflexivity].
      apply (IH Hr) in B. subst. reflexivity.
    + intros ->. constructor; [apply read_double; [apply H; left|]; reflexivity|apply (IH Hr); reflexivity].
Qed.
Lemma read_table : forall X, (forall r x, In r X -> In x r -> ~ is_nan x) ->
  forall Y, Forall2 (Forall2 reads) (table_text X) Y <-> Y = X.
Proof.
  induction X as [|r X IH]; intros H Y; cbn [table_text map].
  - split; [intros Q; inversion Q; reflexivity|intros ->; constructor].
  - assert (Hr : forall q x, In q X -> In x q -> ~ is_nan x) by (intros q x Q; apply H; right; exact Q). split.
    + intros Q. inversion Q as [|? y ? s' A B]; subst. apply read_row in A; [|intros x; apply H; left; reflexivity].
      apply (IH Hr) in B. subst. reflexivity.
    + intros ->. constructor; [apply read_row; [intros x; apply H; left|]; reflexivity|apply (IH Hr); reflexivity].
Qed.
Lemma table_plain : forall X, (forall r, In r X -> r <> []) ->
  forall r, In r (table_text X) -> r <> [] /\ forall w, In w r -> plain w.
Proof.
  intros X H r I. apply in_map_iff in I. destruct I as (q & <- & Q). split.
  - specialize (H q Q). destruct q; [contradiction|discriminate].
  - intros w W. apply in_map_iff in W. destruct W as (x & <- & _). apply plain_double.
Qed.
