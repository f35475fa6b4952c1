(** * Properties of the text maps of the command line (C89) *)
From Coq Require Import Reals ZArith Lia Lra List Bool Ascii String.
From Coq Require Import Floats.SpecFloat.
From Verif Require Import Py HalfSpace_Model Systems_Model Pipeline_Spec HardWall_Model HardWall_Spec HardWall_Proofs HardWall_Results.
From Verif Require Prop_HardWall.
From Verif Require Import Float_IEEE Float_Double.
From Verif Require Import Logger_Model Logger_Spec Logger_Proofs Logger_Files Logger_Read TextMap_Model TextMap_Spec TextMap_Proofs.
From Coq Require Import List.
Import ListNotations.
Local Open Scope string_scope.
Local Open Scope list_scope.
Local Open Scope R_scope.

(** A double that was written is read as the same double (with its sign, also
    zeros and infinities), and as no other one. *)
Theorem C89_double : forall x y, (~ is_nan x -> (reads (fmt_double x) y <-> y = x))
  /\ (is_nan x -> (reads (fmt_double x) y <-> is_nan y)).
Proof. intros x y. split; intros H; [apply read_double, H|apply read_nan, H]. Qed.

(** A file with any comment without carriage returns is read as the table that
    was written. *)
Theorem C89_table : forall h X, ~ In cr h -> table X ->
  forall Y, loads (savetxt h (table_text X)) Y <-> Y = X.
Proof.
  intros h X H [N V] Y. unfold loads. rewrite load_save; [apply read_table, V|exact H|apply table_plain, N].
Qed.

(** A carriage return in the comment (in the command line, for instance) ends
    it: what follows is read as the first row. *)
Theorem C89_break_refuted : forall h r X, ~ In cr h -> table (r :: X) ->
  forall Y, loads (savetxt (h ++ cr :: joined (tx " ") (map fmt_double r)) (table_text X)) Y <-> Y = r :: X.
Proof.
  intros h r X H [N V] Y. unfold loads.
  rewrite <- (read_table (r :: X) V Y).
  enough (L : loadtxt (savetxt (h ++ cr :: joined (tx " ") (map fmt_double r)) (table_text X)) = table_text (r :: X)) by (rewrite L; reflexivity).
  rewrite <- (load_save h (table_text (r :: X)) H (table_plain _ N)). unfold loadtxt. f_equal. f_equal.
  pose proof (table_plain (r :: X) N (map fmt_double r) (or_introl eq_refl)) as [NE PL].
  destruct (row_line _ NE PL) as [NB _].
  unfold savetxt. change (table_text (r :: X)) with (map fmt_double r :: table_text X). cbn [flat_map].
  set (J := joined (tx " ") (map fmt_double r)) in *. set (rest := flat_map _ (table_text X)).
  assert (CJ : commented J = J).
  { clearbody J. clear - NB. induction J as [|c J IH]; [reflexivity|]. unfold commented. cbn [flat_map]. fold (commented J).
    rewrite IH by (intros d D; apply NB; right; exact D). destruct (Ascii.eqb_spec c nl) as [->|_]; [|reflexivity].
    discriminate (NB nl (or_introl eq_refl)). }
  replace (commented (h ++ cr :: J)) with (commented h ++ cr :: J).
  2: { unfold commented at 2. rewrite flat_map_app. cbn [flat_map]. fold (commented J). rewrite CJ. reflexivity. }
  rewrite <- !app_assoc. change ([nl] ++ ?x) with (nl :: x). rewrite <- app_comm_cons.
  change (tx "# ") with ["#"%char; " "%char]. cbn [app lines_of].
  change (is_nl "#"%char) with false. change (is_nl " "%char) with false. cbn iota. cbn [app].
  change ["#"%char; " "%char] with (tx "# " ++ []).
  rewrite (lines_comment cr h [] _ eq_refl H), (lines_comment nl h [] _ eq_refl H). reflexivity.
Qed.

(** The contact map is read as zeros and ones. *)
Lemma reads_bool : forall b y, reads (fmt_bool b) y <-> y = of_bool b.
Proof.
  intros b y.
  assert (D : decimal (fmt_bool b) = Some (false, if b then 1 else 0)).
  { destruct b; reflexivity. }
  assert (F : finD (of_bool b)) by (destruct b; vm_compute; exact I).
  assert (S : sign (of_bool b) = false) by (destruct b; reflexivity).
  assert (M : mag (of_bool b) = if b then 1 else 0).
  { unfold mag, val64. destruct b.
    - replace (raw (of_bool true)) with (S754_finite false 4503599627370496 (-52)) by (vm_compute; reflexivity).
      cbn [num64]. rewrite Rabs_right.
      + change (powerRZ 2 (-52)) with (/ 2 ^ 52). field.
      + apply Rle_ge, Rmult_le_pos; [lra|left; apply powerRZ_lt; lra].
    - replace (raw (of_bool false)) with (S754_zero false) by (vm_compute; reflexivity). cbn [num64]. apply Rabs_R0. }
  assert (L : (if b then 1 else 0) < 2 ^ 1024 - 2 ^ 970).
  { assert (P : 2 ^ 1024 = 2 ^ 54 * 2 ^ 970) by (rewrite <- pow_add; reflexivity). rewrite P.
    assert (1 <= 2 ^ 970) by (apply pow_R1_Rle; lra). assert (2 ^ 54 = 18014398509481984) by lra. rewrite H0.
    revert H. generalize (2 ^ 970). intros. destruct b; lra. }
  unfold reads. rewrite D. set (lim := 2 ^ 1024 - 2 ^ 970) in *. clearbody lim. split.
  - intros (A & [B Q] & _); [exact L|]. apply same_double; [exact B|exact F|congruence|].
    specialize (Q (of_bool b) F). change (Rabs (mag y - (if b then 1 else 0)) <= Rabs (mag (of_bool b) - (if b then 1 else 0))) in Q.
    rewrite M in Q |- *. clear - Q. destruct b; split_Rabs; lra.
  - intros ->. split; [exact S|]. split; [|intros; lra]. intros _. split; [exact F|]. intros z _.
    change (Rabs (val64 (of_bool b))) with (mag (of_bool b)). rewrite M, Rminus_diag_eq, Rabs_R0 by reflexivity. apply Rabs_pos.
Qed.
Lemma rows_plain : forall s (f : nat -> nat -> text), (0 < nth 1 s 0)%nat -> (forall i j, plain (f i j)) ->
  forall r, In r (array_rows s f) -> r <> [] /\ forall w, In w r -> plain w.
Proof.
  intros s f P Q r I. unfold array_rows in I. apply in_map_iff in I. destruct I as (i & <- & _). split.
  - destruct (nth 1 s 0%nat); [lia|discriminate].
  - intros w W. apply in_map_iff in W. destruct W as (j & <- & _). apply Q.
Qed.
Theorem C89_contact : forall h s z, ~ In cr h -> (0 < nth 1 s 0)%nat ->
  forall Y, loads (savetxt h (array_rows s (fun i j => fmt_bool (z i j)))) Y
    <-> Y = array_rows s (fun i j => of_bool (z i j)).
Proof.
  intros h s z H P Y. unfold loads. rewrite load_save; [|exact H|apply rows_plain; [exact P|intros; apply plain_bool]].
  unfold array_rows.
  assert (A : forall i l r, Forall2 reads (map (fun j => fmt_bool (z i j)) l) r <-> r = map (fun j => of_bool (z i j)) l).
  { intros i. induction l as [|j l IH]; intros r; cbn [map].
    - split; [intros Q; inversion Q; reflexivity|intros ->; constructor].
    - split; [intros Q; inversion Q as [|? y ? s' A B]; subst; apply reads_bool in A; apply IH in B; subst; reflexivity|].
      intros ->. constructor; [apply reads_bool; reflexivity|apply IH; reflexivity]. }
  revert Y. generalize (seq 0 (nth 0 s 0%nat)) as l. induction l as [|i l IH]; intros Y; cbn [map].
  - split; [intros Q; inversion Q; reflexivity|intros ->; constructor].
  - split; [intros Q; inversion Q as [|? y ? s' A' B]; subst; apply A in A'; apply IH in B; subst; reflexivity|].
    intros ->. constructor; [apply A; reflexivity|apply IH; reflexivity].
Qed.

(** ** The maps of a run *)
Lemma entries_plain : forall m, (0 < nth 1 (map_shape m) 0)%nat ->
  forall r, In r (entries m) -> r <> [] /\ forall w, In w r -> plain w.
Proof.
  intros [s z|e a|u a] P; cbn [entries]; apply rows_plain; try exact P; intros; auto using plain_bool, plain_real.
Qed.

Section Run.
  Variable versionstr commandline : text.
  Variable repr : R -> text.
  Notation text_of := (file_text versionstr commandline repr).

  Notation tidy := (tidy versionstr commandline repr).

  Lemma cr_const : forall t, forallb (fun c => negb (Ascii.eqb c cr)) t = true -> ~ In cr t.
  Proof.
    intros t H I. rewrite forallb_forall in H. specialize (H cr I). rewrite Ascii.eqb_refl in H. discriminate.
  Qed.
  Lemma cr_app : forall s t, ~ In cr s -> ~ In cr t -> ~ In cr (s ++ t).
  Proof. intros s t A B I. apply in_app_or in I. tauto. Qed.
  Lemma tx_append : forall s t, tx (String.append s t) = tx s ++ tx t.
  Proof. induction s as [|c s IH]; intros t; [reflexivity|]. cbn. f_equal. apply IH. Qed.

  Lemma header_tidy : forall estar unit, ~ In cr (tx unit) -> forall n, In n (HardWall_Model.header estar unit) -> ~ In cr (tx n).
  Proof.
    intros estar unit U n I. unfold HardWall_Model.header in I.
    assert (K : forall a b, ~ In cr (tx a) -> ~ In cr (tx b) -> ~ In cr (tx (in_unit a b))).
    { intros a b A B. unfold in_unit. rewrite !tx_append. repeat apply cr_app; try assumption; apply cr_const; reflexivity. }
    assert (E : ~ In cr (tx (if estar then "E*" else "[Units of E*]"))) by (destruct estar; apply cr_const; reflexivity).
    assert (SQ : ~ In cr (tx (String.append unit "^2"))) by (rewrite tx_append; apply cr_app; [exact U|apply cr_const; reflexivity]).
    cbn [In] in I. destruct I as [<-|[<-|[<-|[<-|[<-|[<-|[<-|[]]]]]]]].
    - apply K; [apply cr_const; reflexivity|exact U].
    - apply K; [apply cr_const; reflexivity|exact U].
    - apply K; [apply cr_const; reflexivity|exact U].
    - apply K; [apply cr_const; reflexivity|]. rewrite !tx_append. repeat apply cr_app; [exact E|apply cr_const; reflexivity|exact U|apply cr_const; reflexivity].
    - apply K; [apply cr_const; reflexivity|exact E].
    - apply K; [apply cr_const; reflexivity|exact SQ].
    - apply cr_const. reflexivity.
  Qed.

  Lemma header_no_cr : forall unit m mc, tidy unit -> (forall p, In p mc -> ~ In cr (tx (fst p))) ->
    (forall u a, m = WLength u a -> u = unit) -> ~ In cr (file_header versionstr commandline repr m mc).
  Proof.
    intros unit m mc (V & K & Rp & U) N L. unfold file_header.
    repeat apply cr_app; try assumption; try (apply cr_const; reflexivity).
    - unfold macrostr. intro I. destruct (in_joined _ _ _ I) as [[Q|[]]|(w & W & J)]; [discriminate|].
      apply in_map_iff in W. destruct W as (p & <- & P). apply in_app_or in J. destruct J as [J|J]; [exact (N p P J)|].
      apply in_app_or in J. destruct J as [J|J]; [|exact (Rp _ J)]. revert J. apply cr_const. reflexivity.
    - unfold title. destruct m as [s z|[e|] a|u a]; try (apply cr_const; reflexivity).
      + repeat apply cr_app; [apply cr_const; reflexivity|apply Rp|apply cr_const; reflexivity].
      + rewrite (L u a eq_refl). repeat apply cr_app; [apply cr_const; reflexivity|exact U|apply cr_const; reflexivity].
  Qed.

  Section Main.
  Variable float_of : string -> res R.
  Variable int_of : string -> res Z.
  Variable detrend : string -> surface -> res surface.
  Variable load : option string -> res scanned.
  Variable file_unit : option string.
  Variable solver : substrate -> surface -> option R -> option R -> option R -> option R -> nat -> res oresult.
  Variable active : surface -> option R -> option R -> zone.
  Notation main := (hw_main float_of int_of detrend load file_unit solver active).

  Lemma emit_length : forall young sizes unit a single i sf o ev r, emit young sizes unit a single i sf o = (ev, r) ->
    forall n m mc, In (Saved n m mc) ev -> forall u x, m = WLength u x -> u = unit.
  Proof.
    intros young sizes unit a single i sf o ev r H n m mc X u x ->. unfold emit in H.
    destruct (dump young sizes unit sf (so_u o) (so_f o) (so_offset o)) as [hd rw].
    set (nc := if hw_netcdf a then _ else _) in *.
    assert (NC : forall n m mc, ~ In (Saved n m mc) nc).
    { intros n0 m0 mc0 Q. unfold nc in Q. destruct (hw_netcdf a); [|destruct Q]. destruct Q as [Q|[]]. discriminate. }
    clearbody nc. unfold save in H.
    destruct (hw_contact_fn a) as [f1|]; destruct (hw_pressure_fn a) as [f2|];
      destruct (hw_displ_fn a) as [f3|]; destruct (hw_gap_fn a) as [f4|]; cbn zeta beta iota in H;
      (destruct (binop Rminus (so_u o) (heights sf)) as [d|e]; cbn [fst] in H);
      injection H as <- <-;
      repeat (apply in_app_or in X; destruct X as [X|X]); try (exfalso; eapply NC; exact X); cbn [In app] in X;
      repeat match type of X with _ \/ _ => destruct X as [X|X] end; try contradiction; try discriminate X;
      injection X; intros; subst; reflexivity.
  Qed.

  (** What a run puts into the comment. *)
  Lemma run_macro : forall a ev r, main a = (ev, r) -> forall fn m mc, In (Saved fn m mc) ev ->
    (mc = [] \/ exists e d, List.length d = 7%nat /\ mc = combine (HardWall_Model.header e (unit_name a file_unit)) d)
    /\ (forall u x, m = WLength u x -> u = unit_name a file_unit)
    /\ (forall s z, m = WContact s z -> mc <> []).
  Proof.
    intros a ev r H fn m mc I. destruct (hw_displacement a) as [d|] eqn:D.
    - destruct (main_displacement float_of int_of detrend load file_unit solver active a d D) as [e Q]. rewrite Q in H.
      injection H as <- <-. destruct I.
    - destruct (main_run float_of int_of detrend load file_unit solver active a ev r H D) as [[-> _]|(t & sb & young & y & o & _ & _ & _ & _ & Rn)]; [destruct I|].
      destruct (run_events _ _ _ _ _ _ _ _ _ _ _ _ _ _ Rn _ I) as (j & sf & o' & ev' & r' & E & I' & _).
      pose proof (emit_length _ _ _ _ _ _ _ _ _ _ E _ _ _ I') as L.
      destruct (emit_saved _ _ _ _ _ _ _ _ _ _ E _ _ _ I') as (Mc & _ & _ & _ & _ & Ct).
      assert (U : surface_unit a file_unit = unit_name a file_unit)
        by (unfold surface_unit, given_unit, unit_name; destruct (hw_size_unit a), file_unit; reflexivity).
      rewrite U in *. split; [|split; [exact L|]].
      + destruct Mc as [->|(hd & rw & _ & -> & ->)]; [left; reflexivity|right]. do 2 eexists. split; [|reflexivity].
        destruct rw; reflexivity.
      + intros s z ->. destruct Mc as [Q|(hd & rw & _ & -> & ->)]; [|destruct rw; discriminate].
        destruct (Ct s z eq_refl) as (hd & rw & Ro & ->).
        assert (N : hd <> []).
        { clear - E Ro. unfold emit in E. destruct (dump young (sc_sizes t) (unit_name a file_unit) sf (so_u o') (so_f o') (so_offset o')) as [h0 r0] eqn:Dm.
          assert (A : h0 <> []) by (unfold dump in Dm; injection Dm as <- _; discriminate).
          assert (B : In (Row hd rw) ev' -> hd = h0); [|rewrite (B Ro); exact A].
          set (nc := if hw_netcdf a then _ else _) in *.
          assert (NC : forall h r, ~ In (Row h r) nc).
          { intros n0 m0 Q. unfold nc in Q. destruct (hw_netcdf a); [|destruct Q]. destruct Q as [Q|[]]. discriminate. }
          clearbody nc. unfold save in E. clear Ro. intro X.
          destruct (hw_contact_fn a) as [f1|]; destruct (hw_pressure_fn a) as [f2|];
            destruct (hw_displ_fn a) as [f3|]; destruct (hw_gap_fn a) as [f4|]; cbn zeta beta iota in E;
            (destruct (binop Rminus (so_u o') (heights sf)) as [d|e]; cbn [fst] in E);
            injection E as <- <-;
            repeat (apply in_app_or in X; destruct X as [X|X]); try (exfalso; eapply NC; exact X); cbn [In app] in X;
            repeat match type of X with _ \/ _ => destruct X as [X|X] end; try contradiction; try discriminate X;
            injection X; intros; subst; reflexivity. }
        destruct hd; [congruence|]. destruct rw; discriminate.
  Qed.

  Lemma tidy_header : forall a ev r, main a = (ev, r) -> tidy (unit_name a file_unit) ->
    forall fn m mc, In (Saved fn m mc) ev -> ~ In cr (file_header versionstr commandline repr m mc).
  Proof.
    intros a ev r H T fn m mc I. destruct (run_macro a ev r H fn m mc I) as (Mc & L & _).
    apply (header_no_cr (unit_name a file_unit)); [exact T| |exact L].
    destruct Mc as [->|(e & d & _ & ->)]; [intros p []|]. intros [n x] P. apply in_combine_l in P.
    apply (header_tidy e (unit_name a file_unit)); [apply T|exact P].
  Qed.

  Lemma rows_nth : forall n k (f : nat -> nat -> text) i j, (i < n)%nat -> (j < k)%nat ->
    nth_error (nth i (array_rows [n; k] f) []) j = Some (f i j).
  Proof.
    intros n k f i j A B. unfold array_rows. cbn [nth].
    rewrite (nth_indep _ [] (map (f 0%nat) (seq 0 k))) by (rewrite map_length, seq_length; exact A).
    rewrite (map_nth (fun i => map (f i) (seq 0 k)) (seq 0 n) 0%nat i), seq_nth by exact A. cbn [Nat.add].
    rewrite nth_error_map, (nth_error_nth' _ 0%nat), seq_nth by (rewrite ?seq_length; exact B). reflexivity.
  Qed.
  Lemma rows_rectangle : forall n k (f : nat -> nat -> text), rectangle (array_rows [n; k] f) n k.
  Proof.
    intros n k f. unfold array_rows. cbn [nth]. split; [rewrite map_length; apply seq_length|].
    intros row X. apply in_map_iff in X. destruct X as (i & <- & _). rewrite map_length. apply seq_length.
  Qed.

  Lemma fmt_real_double : forall x, finD x -> exists z, fmt_real (val64 x) = fmt_double z /\ finD z /\ val64 z = val64 x.
  Proof.
    intros x F. unfold finD in F. destruct (raw x) as [s|s| |s m e] eqn:Q; try (now destruct F).
    - exists (mk64 (S754_zero false)). change (raw x) with (raw x). unfold val64. rewrite Q. cbn [num64].
      replace (raw (mk64 (S754_zero false))) with (S754_zero false) by reflexivity. unfold finD, fmt_double.
      replace (raw (mk64 (S754_zero false))) with (S754_zero false) by reflexivity. split; [|split; [exact I|reflexivity]].
      unfold fmt_real. destruct (Rlt_dec 0 0); [lra|]. rewrite Rabs_R0. reflexivity.
    - exists x. split; [|split; [unfold finD; rewrite Q; exact F|reflexivity]].
      unfold fmt_real, fmt_double. rewrite Q. rewrite <- (mag_finite x s m e Q). unfold mag. f_equal.
      unfold val64. rewrite Q. cbn [num64].
      assert (P : 0 < IZR (Zpos m) * powerRZ 2 e) by (apply Rmult_lt_0_compat; [apply IZR_lt; lia|apply powerRZ_lt; lra]).
      destruct s; [rewrite Ropp_mult_distr_l_reverse|]; destruct (Rlt_dec _ 0); try reflexivity; exfalso; lra.
  Qed.
  Lemma fin_not_nan : forall x, finD x -> ~ is_nan x.
  Proof. unfold finD, is_nan. intros x F Q. rewrite Q in F. exact F. Qed.

  Lemma real_shown : forall v, exists s r, decimal (fmt_real v) = Some (s, r)
    /\ Rabs ((if s then - r else r) - v) <= 5 / 10 ^ 19 * Rabs v
    /\ forall x, finD x -> val64 x = v -> (exists y, reads (fmt_real v) y) /\ forall y, reads (fmt_real v) y -> finD y /\ val64 y = v.
  Proof.
    intros v. unfold fmt_real at 1. set (s := if Rlt_dec v 0 then true else false).
    destruct (fmt_e_decimal s (Rabs v) (Rabs_pos v)) as (r & D & E). exists s, r. split; [exact D|]. split.
    - unfold Rdiv. unfold s. destruct (Rlt_dec v 0) as [L|L].
      + replace (- r - v) with (- (r - Rabs v)) by (rewrite (Rabs_left v L); ring). rewrite Rabs_Ropp. exact E.
      + rewrite (Rabs_right v) in E |- * by lra. exact E.
    - intros x F <-. destruct (fmt_real_double x F) as (z & -> & Fz & Vz). rewrite <- Vz.
      pose proof (fun y => proj1 (C89_double z y) (fin_not_nan z Fz)) as K. split; [exists z; apply K; reflexivity|].
      intros y Y. apply K in Y. subst y. auto.
  Qed.
  Lemma bool_shown : forall b (w := fmt_bool b) (v := if b then 1 else 0), exists s r, decimal w = Some (s, r)
    /\ Rabs ((if s then - r else r) - v) <= 5 / 10 ^ 19 * Rabs v
    /\ forall x, finD x -> val64 x = v -> (exists y, reads w y) /\ forall y, reads w y -> finD y /\ val64 y = v.
  Proof.
    intros b w v. exists false, v. split; [destruct b; reflexivity|]. split.
    - rewrite Rminus_diag_eq, Rabs_R0 by reflexivity. apply Rmult_le_pos; [|apply Rabs_pos].
      apply Rmult_le_pos; [lra|left; apply Rinv_0_lt_compat, pow_lt; lra].
    - assert (F : finD (of_bool b)) by (destruct b; vm_compute; exact I).
      assert (V : val64 (of_bool b) = v).
      { unfold v, val64. destruct b.
        - replace (raw (of_bool true)) with (S754_finite false 4503599627370496 (-52)) by (vm_compute; reflexivity).
          cbn [num64]. change (powerRZ 2 (-52)) with (/ 2 ^ 52). field.
        - replace (raw (of_bool false)) with (S754_zero false) by (vm_compute; reflexivity). reflexivity. }
      intros _ _ _. split; [exists (of_bool b); apply reads_bool; reflexivity|].
      intros y Y. apply reads_bool in Y. subst y. auto.
  Qed.

  Theorem C89_run : forall a ev r, main a = (ev, r) -> tidy (unit_name a file_unit) ->
    forall fn m mc n k, In (Saved fn m mc) ev -> map_shape m = [n; k] -> (0 < k)%nat ->
      rectangle (loadtxt (text_of m mc)) n k
      /\ forall i j, (i < n)%nat -> (j < k)%nat -> shows_value (loadtxt (text_of m mc)) i j (map_value m i j).
  Proof.
    intros a ev r H T fn m mc n k I Sh K.
    assert (L : loadtxt (text_of m mc) = entries m).
    { apply load_save; [exact (tidy_header a ev r H T fn m mc I)|apply entries_plain].
      rewrite Sh. exact K. }
    rewrite L. destruct m as [s z|e v|u v]; cbn [entries map_shape map_value] in *; rewrite Sh;
      (split; [apply rows_rectangle|]); intros i j A B; unfold shows_value.
    - destruct (bool_shown (z i j)) as (s' & r' & Q). exists (fmt_bool (z i j)), s', r'.
      split; [apply (rows_nth n k (fun i j => fmt_bool (z i j))); assumption|exact Q].
    - destruct (real_shown (a_val v i j)) as (s' & r' & Q). exists (fmt_real (a_val v i j)), s', r'.
      split; [apply (rows_nth n k (fun i j => fmt_real (a_val v i j))); assumption|exact Q].
    - destruct (real_shown (a_val v i j)) as (s' & r' & Q). exists (fmt_real (a_val v i j)), s', r'.
      split; [apply (rows_nth n k (fun i j => fmt_real (a_val v i j))); assumption|exact Q].
  Qed.

  (** *** The comment *)
  Lemma comment_line : forall w rest acc, ~ In nl w -> comment_lines (w ++ nl :: rest) acc = (tx "# " ++ acc ++ w) :: comment_lines rest [].
  Proof.
    induction w as [|c w IH]; intros rest acc N.
    - cbn [app comment_lines]. rewrite Ascii.eqb_refl, app_nil_r. reflexivity.
    - cbn [app comment_lines]. destruct (Ascii.eqb_spec c nl) as [->|_]; [exfalso; apply N; left; reflexivity|].
      rewrite IH by (intro Q; apply N; right; exact Q). rewrite <- app_assoc. reflexivity.
  Qed.
  Lemma comment_last : forall w acc, ~ In nl w -> comment_lines w acc = [tx "# " ++ acc ++ w].
  Proof.
    induction w as [|c w IH]; intros acc N; cbn [comment_lines]; [rewrite app_nil_r; reflexivity|].
    destruct (Ascii.eqb_spec c nl) as [->|_]; [exfalso; apply N; left; reflexivity|].
    rewrite IH by (intro Q; apply N; right; exact Q). rewrite <- app_assoc. reflexivity.
  Qed.
  Lemma nl_const : forall t, forallb (fun c => negb (Ascii.eqb c nl)) t = true -> ~ In nl t.
  Proof.
    intros t H I. rewrite forallb_forall in H. specialize (H nl I). rewrite Ascii.eqb_refl in H. discriminate.
  Qed.
  Lemma nl_app : forall s t, ~ In nl s -> ~ In nl t -> ~ In nl (s ++ t).
  Proof. intros s t A B I. apply in_app_or in I. tauto. Qed.
  Lemma header_one_line : forall estar unit, ~ In nl (tx unit) -> forall n, In n (HardWall_Model.header estar unit) -> ~ In nl (tx n).
  Proof.
    intros estar unit U n I. unfold HardWall_Model.header in I.
    assert (K : forall a b, ~ In nl (tx a) -> ~ In nl (tx b) -> ~ In nl (tx (in_unit a b))).
    { intros a b A B. unfold in_unit. rewrite !tx_append. repeat apply nl_app; try assumption; apply nl_const; reflexivity. }
    assert (E : ~ In nl (tx (if estar then "E*" else "[Units of E*]"))) by (destruct estar; apply nl_const; reflexivity).
    assert (SQ : ~ In nl (tx (String.append unit "^2"))) by (rewrite tx_append; apply nl_app; [exact U|apply nl_const; reflexivity]).
    cbn [In] in I. destruct I as [<-|[<-|[<-|[<-|[<-|[<-|[<-|[]]]]]]]];
      repeat (rewrite ?tx_append; first [apply K | apply nl_app | assumption | apply nl_const; reflexivity]).
  Qed.
  Lemma title_one_line : forall m unit, one_line versionstr commandline repr unit -> (forall u x, m = WLength u x -> u = unit) -> ~ In nl (title repr m).
  Proof.
    intros m unit (_ & _ & Rp & U) L. unfold title. destruct m as [s z|[e|] a|u a]; try (apply nl_const; reflexivity).
    - repeat apply nl_app; [apply nl_const; reflexivity|apply Rp|apply nl_const; reflexivity].
    - rewrite (L u a eq_refl). repeat apply nl_app; [apply nl_const; reflexivity|exact U|apply nl_const; reflexivity].
  Qed.
  Lemma macro_lines : forall l n x rest, (forall y, ~ In nl (repr y)) -> (forall p, In p l -> ~ In nl (tx (fst p))) -> ~ In nl (tx n) -> ~ In nl rest ->
    comment_lines (macrostr repr (l ++ [(n, x)]) ++ rest) []
    = map (fun p => tx "# " ++ tx (fst p) ++ tx " = " ++ repr (snd p)) l ++ [tx "# " ++ tx n ++ tx " = " ++ repr x ++ rest].
  Proof.
    intros l n x rest Rp Nl Nn Nr. unfold macrostr.
    assert (EQ : ~ In nl (tx " = ")) by (apply nl_const; reflexivity).
    induction l as [|p l IH].
    - cbn [map app joined fst snd]. rewrite comment_last by (repeat apply nl_app; auto). cbn [app]. rewrite <- !app_assoc. reflexivity.
    - cbn [map app]. set (l' := map _ (l ++ [(n, x)])) in *.
      assert (l' <> []) by (unfold l'; destruct l; discriminate).
      assert (J : forall a, joined [nl] (a :: l') = a ++ nl :: joined [nl] l') by (intros; destruct l'; [congruence|reflexivity]).
      rewrite J. rewrite <- app_assoc. cbn [app]. rewrite comment_line by (repeat apply nl_app; auto; apply Nl; left; reflexivity).
      f_equal. apply IH. intros q Q. apply Nl. right. exact Q.
  Qed.

  (** The lines of a map: version, command line, then either the title or the
      line of the calculation in the log, one value in a line, the last one
      followed by the title without a separator; then the rows. *)
  Theorem C89_lines : forall a ev r, main a = (ev, r) -> tidy (unit_name a file_unit) -> one_line versionstr commandline repr (unit_name a file_unit) ->
    forall fn m mc n k, In (Saved fn m mc) ev -> map_shape m = [n; k] -> (0 < k)%nat ->
      exists about rows, file_lines (text_of m mc) = (tx "# " ++ versionstr) :: (tx "# " ++ commandline) :: about ++ rows
        /\ List.length rows = n
        /\ ((mc = [] /\ about = [tx "# " ++ title repr m])
            \/ exists l x, mc = l ++ [("fractional area"%string, x)] /\ List.length l = 6%nat
                 /\ about = map (fun p => tx "# " ++ tx (fst p) ++ tx " = " ++ repr (snd p)) l
                            ++ [tx "# fractional area = " ++ repr x ++ title repr m]).
  Proof.
    intros a ev r H T (V & Cl & Rp & U) fn m mc n k I Sh K.
    destruct (run_macro a ev r H fn m mc I) as (Mc & L & _).
    assert (Ti : ~ In nl (title repr m)) by (apply (title_one_line m (unit_name a file_unit)); [repeat split; assumption|exact L]).
    assert (E : file_lines (text_of m mc) = (tx "# " ++ versionstr) :: (tx "# " ++ commandline)
              :: comment_lines (macrostr repr mc ++ title repr m) [] ++ map (joined (tx " ")) (entries m)).
    { unfold file_text. rewrite save_lines; [|exact (tidy_header a ev r H T fn m mc I)|].
      - unfold file_header. change ([nl] ++ ?x) with (nl :: x). cbn [app]. rewrite (comment_line versionstr _ [] V), (comment_line commandline _ [] Cl).
        reflexivity.
      - apply entries_plain.
        rewrite Sh. exact K. }
    rewrite E. do 2 eexists. split; [reflexivity|]. split.
    { rewrite map_length. destruct m; cbn [entries map_shape] in *; rewrite Sh; apply rows_rectangle. }
    destruct Mc as [->|(e & d & Ln & ->)]; [left|right].
    - split; [reflexivity|]. unfold macrostr. cbn [map joined app]. apply (comment_last _ [] Ti).
    - destruct d as [|d1 [|d2 [|d3 [|d4 [|d5 [|d6 [|d7 [|? ?]]]]]]]]; try discriminate Ln.
      set (hd := HardWall_Model.header e (unit_name a file_unit)).
      assert (X : combine hd [d1; d2; d3; d4; d5; d6; d7] = combine (firstn 6 hd) [d1; d2; d3; d4; d5; d6] ++ [("fractional area"%string, d7)]) by reflexivity.
      exists (combine (firstn 6 hd) [d1; d2; d3; d4; d5; d6]), d7. split; [exact X|]. split; [reflexivity|]. rewrite X.
      rewrite macro_lines; [reflexivity|exact Rp| |apply nl_const; reflexivity|exact Ti].
      intros [q x] Q. cbn [fst]. apply in_combine_l in Q. apply (header_one_line e (unit_name a file_unit) U).
      unfold hd in Q. cbn [firstn HardWall_Model.header In] in Q |- *. tauto.
  Qed.

  (** In every contact map the fractional area and the title are in one
      line. *)
  Theorem C89_title_refuted : forall a ev r, main a = (ev, r) -> tidy (unit_name a file_unit) -> one_line versionstr commandline repr (unit_name a file_unit) ->
    forall fn s z mc n k, In (Saved fn (WContact s z) mc) ev -> s = [n; k] -> (0 < k)%nat ->
      exists x, In ("fractional area"%string, x) mc
        /\ nth_error (file_lines (text_of (WContact s z) mc)) 8 = Some (tx "# fractional area = " ++ repr x ++ tx "Contact map follows. Values are boolean.").
  Proof.
    intros a ev r H T Ol fn s z mc n k I Sh K.
    destruct (C89_lines a ev r H T Ol fn _ mc n k I Sh K) as (about & rows & -> & _ & [[-> _]|(l & x & -> & L6 & ->)]).
    - exfalso. destruct (run_macro a ev r H _ _ _ I) as (_ & _ & Q). exact (Q s z eq_refl eq_refl).
    - exists x. split; [apply in_or_app; right; left; reflexivity|].
      destruct l as [|p1 [|p2 [|p3 [|p4 [|p5 [|p6 [|? ?]]]]]]]; try discriminate L6. reflexivity.
  Qed.
  End Main.
End Run.

(** ** The argument of [--size] *)
Theorem C89_size : forall float_of s x y, tuple2 float_of s = Some (x, y) <->
  exists a b, s = String.append a (String.append "," b) /\ no_comma a /\ no_comma b /\ float_of a = Some x /\ float_of b = Some y.
Proof.
  intros float_of s x y. unfold tuple2. split.
  - destruct (HardWall_Results.split_join s) as [J N]. destruct (split_comma s) as [|a [|b [|? ?]]] eqn:E; cbn [map]; intros H.
    + discriminate.
    + destruct (float_of a); discriminate.
    + destruct (float_of a) as [x'|] eqn:A; [|discriminate]. destruct (float_of b) as [y'|] eqn:B; [|discriminate].
      injection H as -> ->. exists a, b. split; [symmetry; exact J|]. repeat split; try assumption; apply N; cbn [In]; tauto.
    + destruct (float_of a); [|discriminate]. destruct (float_of b); discriminate.
  - intros (a & b & -> & Na & Nb & A & B). change (String.append a (String.append "," b)) with (HardWall_Results.join_comma [a; b]).
    rewrite (HardWall_Results.split_unique [a; b]) by (try discriminate; intros z [<-|[<-|[]]]; assumption).
    cbn [map]. rewrite A, B. reflexivity.
Qed.
Print Assumptions C89_double.
Print Assumptions C89_table.
Print Assumptions C89_break_refuted.
Print Assumptions C89_contact.
Print Assumptions C89_run.
Print Assumptions C89_lines.
Print Assumptions C89_title_refuted.
Print Assumptions C89_size.

(** ** Concrete cases *)
Example C89_nonvacuous : table [[dbl 3 (-1); mk64 (S754_zero true)]; [dbl (-7) 900; mk64 (S754_infinity true)]]
  /\ ~ In cr (tx "x = 1") /\ (forall x, is_nan x -> reads (fmt_double x) x).
Proof.
  split; [split|split].
  - intros r [<-|[<-|[]]]; discriminate.
  - intros r x [<-|[<-|[]]] [<-|[<-|[]]]; vm_compute; discriminate.
  - apply cr_const. reflexivity.
  - intros x N. apply C89_double; exact N.
Qed.

(** A run that writes all four maps of 2 x 2 points. *)
Definition ex_tidy : tidy (tx "1.0") (tx "hard_wall -p 1") (fun _ => tx "0.5") "m" /\ one_line (tx "1.0") (tx "hard_wall -p 1") (fun _ => tx "0.5") "m".
Proof. split; (split; [|split; [|split; [intros _|]]]); first [apply cr_const; reflexivity | apply nl_const; reflexivity]. Qed.
(** The command line [--title a<CR>1.5]. *)
Example C89_nonvacuous_break : forall Y, loads (savetxt (tx "--title a" ++ cr :: joined (tx " ") (map fmt_double [dbl 3 (-1)])) (table_text [[dbl 1 0]])) Y
  <-> Y = [[dbl 3 (-1)]; [dbl 1 0]].
Proof.
  apply C89_break_refuted.
  - intro I. cbn in I. repeat (destruct I as [I|I]; [discriminate I|]). exact I.
  - split.
    + intros r [<-|[<-|[]]]; discriminate.
    + intros r x [<-|[<-|[]]] [<-|[]]; unfold is_nan; vm_compute; discriminate.
Qed.

Example C89_nonvacuous_run : exists ev fc z mc fp e p mp,
  Prop_HardWall.ex_main 1 (Prop_HardWall.ex_hw "periodic" (1 / 2) None None) = (ev, Ret tt)
  /\ unit_name (Prop_HardWall.ex_hw "periodic" (1 / 2) None None) (Some "m"%string) = "m"%string
  /\ In (Saved fc (WContact [2; 2]%nat z) mc) ev /\ In (Saved fp (WPressure e p) mp) ev /\ a_shape p = [2; 2]%nat.
Proof.
  destruct (Prop_HardWall.C67_nonvacuous "periodic" None (or_introl eq_refl) (or_introl eq_refl)) as (ev & E & Fr). pose proof E as E0.
  unfold Prop_HardWall.ex_main in E.
  destruct (Prop_HardWall.C67_output _ _ _ _ _ _ _ _ _ _ E eq_refl) as [[-> _]|(t & sb & young & o & ss & Rd & _ & _ & Ex & _ & Fr' & _ & Fin)]; [exfalso; apply Fr; reflexivity|].
  destruct (Fin eq_refl) as [_ Cm]. rewrite Fr' in Fr. destruct ss as [|s ss]; [exfalso; apply Fr; reflexivity|].
  rewrite (Prop_HardWall.ex_read 1 "periodic" (1 / 2) None) in Rd. injection Rd as <-.
  assert (G : sf_grid (hd_before s) = [2; 2]%nat) by (rewrite (proj1 (hx_grid _ _ _ _ _ _ _ Ex s (or_introl eq_refl))); reflexivity).
  pose proof (hx_solver _ _ _ _ _ _ _ Ex s (or_introl eq_refl)) as Sv. unfold Prop_HardWall.ex_solver in Sv. injection Sv as Sv.
  destruct (Cm KContact "c"%string 0%nat s eq_refl eq_refl) as (m1 & I1 & M1).
  destruct (Cm KPressure "p"%string 0%nat s eq_refl eq_refl) as (m2 & I2 & M2). cbn [map_of] in M1, M2. destruct M2 as [e2 M2].
  unfold forces in M2. rewrite <- Sv in M1, M2. cbn [o_x o_jac a_shape] in M1, M2. rewrite G in M1, M2.
  assert (F : forall n m, In (n, m) (files ev) -> exists mc, In (Saved n m mc) ev).
  { clear. intros n m H. unfold files in H. apply in_flat_map in H. destruct H as (x & X & Y).
    destruct x; cbn in Y; try contradiction. destruct Y as [Y|[]]. injection Y as <- <-. eexists. exact X. }
  destruct (F _ _ I1) as [mc1 J1]. destruct (F _ _ I2) as [mc2 J2]. subst m1 m2.
  do 8 eexists. split; [exact E0|]. split; [reflexivity|]. split; [exact J1|]. split; [exact J2|]. reflexivity.
Qed.
Example C89_nonvacuous_size : forall float_of x y, float_of "2"%string = Some x -> float_of "3"%string = Some y ->
  tuple2 float_of "2,3" = Some (x, y) /\ tuple2 float_of "2" = None /\ tuple2 float_of "2,3,2" = None.
Proof. intros float_of x y A B. unfold tuple2. cbn. rewrite A, B. auto. Qed.
