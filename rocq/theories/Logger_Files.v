(** * Proofs about the logger: files and buffer *)
From Coq Require Import Reals ZArith Lia List Arith Bool Ascii String FinFun.
From Verif Require Import Py Logger_Model Logger_Spec Logger_Proofs.
Import ListNotations.
Local Open Scope string_scope.
Local Open Scope list_scope.
Local Open Scope Z_scope.

(** ** Decimal numbers can be read back *)
Lemma code_chr : forall n, 0 <= n < 256 -> code (chr n) = n.
Proof.
  intros n H. unfold code, chr. rewrite nat_ascii_embedding by lia. lia.
Qed.
Lemma nat_value_snoc : forall s c, nat_value (s ++ [c]) = 10 * nat_value s + (code c - 48).
Proof. intros. unfold nat_value. rewrite fold_left_app. reflexivity. Qed.
Lemma fixed_digits : forall k n, forallb is_digit (fixed k n) = true.
Proof.
  induction k as [|k IH]; intros n; [reflexivity|]. cbn [fixed]. rewrite forallb_app, IH. cbn [forallb andb].
  unfold is_digit. pose proof (Z.mod_pos_bound n 10 ltac:(lia)). rewrite code_chr by lia.
  destruct (Z.leb_spec 48 (48 + n mod 10)); [|lia]. destruct (Z.leb_spec (48 + n mod 10) 57); [reflexivity|lia].
Qed.
Lemma fixed_length : forall k n, List.length (fixed k n) = k.
Proof.
  induction k as [|k IH]; intros n; [reflexivity|]. cbn [fixed]. rewrite app_length, IH. cbn. lia.
Qed.
Lemma fixed_value : forall k n, 0 <= n -> nat_value (fixed k n) = n mod 10 ^ Z.of_nat k.
Proof.
  induction k as [|k IH]; intros n H; [cbn; symmetry; apply Z.mod_1_r|].
  cbn [fixed]. rewrite nat_value_snoc, IH by (apply Z.div_pos; lia).
  pose proof (Z.mod_pos_bound n 10 ltac:(lia)). rewrite code_chr by lia.
  rewrite Nat2Z.inj_succ, Z.pow_succ_r by lia.
  rewrite (Z.rem_mul_r n 10 (10 ^ Z.of_nat k)); [lia|lia|]. apply Z.pow_pos_nonneg; lia.
Qed.
Lemma ndigits_bound : forall f n, 0 <= n < 10 ^ Z.of_nat f -> n < 10 ^ Z.of_nat (ndigits f n) \/ f = 0%nat.
Proof.
  induction f as [|f IH]; intros n H; [right; reflexivity|]. left.
  cbn [ndigits]. destruct (Z.ltb_spec n 10); [exact H0|].
  rewrite Nat2Z.inj_succ, Z.pow_succ_r in * by lia.
  assert (B : 0 <= n / 10 < 10 ^ Z.of_nat f).
  { split; [apply Z.div_pos; lia|]. apply Z.div_lt_upper_bound; lia. }
  destruct (IH _ B) as [I|I].
  - pose proof (Z.div_mod n 10 ltac:(lia)). pose proof (Z.mod_pos_bound n 10 ltac:(lia)). lia.
  - subst f. cbn in B. pose proof (Z.div_le_lower_bound n 10 1 ltac:(lia) ltac:(lia)). lia.
Qed.
Lemma digits_bound : forall n, 0 <= n -> n < 10 ^ Z.of_nat (digits n).
Proof.
  intros n H. unfold digits. destruct (Z.eq_dec n 0) as [->|N]; [reflexivity|].
  destruct (ndigits_bound (S (Z.to_nat (Z.log2 n))) n) as [B|B]; [|exact B|discriminate].
  split; [exact H|]. pose proof (Z.log2_nonneg n). pose proof (Z.log2_spec n ltac:(lia)) as L.
  replace (Z.of_nat (S (Z.to_nat (Z.log2 n)))) with (Z.succ (Z.log2 n)) by lia.
  eapply Z.lt_le_trans; [apply L|]. apply Z.pow_le_mono_l. lia.
Qed.
Lemma ndigits_pos : forall f n, (0 < ndigits f n)%nat.
Proof. intros [|f] n; cbn; [lia|]. destruct (n <? 10); lia. Qed.
Lemma digits_pos : forall n, (0 < digits n)%nat.
Proof. intro n. apply ndigits_pos. Qed.

Lemma str_int_value : forall z, 0 <= z -> nat_value (str_int z) = z.
Proof.
  intros z H. unfold str_int. destruct (Z.ltb_spec z 0); [lia|].
  rewrite fixed_value by exact H. apply Z.mod_small. split; [exact H|apply digits_bound; exact H].
Qed.

(** ** Backup names are free *)
Lemma text_eqb_spec : forall a b, text_eqb a b = true <-> a = b.
Proof.
  intros. unfold text_eqb. destruct (list_eq_dec ascii_dec a b); split; intro; auto; discriminate.
Qed.
Lemma text_eqb_neq : forall a b, text_eqb a b = false <-> a <> b.
Proof.
  intros. unfold text_eqb. destruct (list_eq_dec ascii_dec a b); split; intro; auto; [discriminate|contradiction].
Qed.
Lemma text_eqb_refl : forall a, text_eqb a a = true.
Proof. intro. apply text_eqb_spec. reflexivity. Qed.

Lemma bak_inj : forall fn i j, 0 <= i -> 0 <= j -> bak fn i = bak fn j -> i = j.
Proof.
  intros fn i j Hi Hj H. unfold bak in H. apply app_inv_head in H. apply app_inv_head in H.
  apply app_inv_tail in H. rewrite <- (str_int_value i Hi), <- (str_int_value j Hj), H. reflexivity.
Qed.
Lemma bak_neq : forall fn i, bak fn i <> fn.
Proof.
  intros fn i H. apply (f_equal (@List.length ascii)) in H. unfold bak in H.
  rewrite app_length in H. cbn in H. lia.
Qed.

Lemma lookup_in : forall fn l i, lookup fn l = Some i -> In (fn, i) l.
Proof.
  intros fn l i. induction l as [|[k j] l IH]; cbn; intro H; [discriminate|].
  destruct (text_eqb fn k) eqn:E; [apply text_eqb_spec in E; left; congruence|right; auto].
Qed.
Lemma lookup_none : forall fn l, lookup fn l = None <-> ~ In fn (map fst l).
Proof.
  intros fn l. induction l as [|[k j] l IH]; cbn; [intuition|].
  destruct (text_eqb fn k) eqn:E.
  - apply text_eqb_spec in E. split; [discriminate|intros N; exfalso; apply N; left; auto].
  - apply text_eqb_neq in E. rewrite IH. intuition.
Qed.
Lemma in_lookup : forall fn l i, NoDup (map fst l) -> In (fn, i) l -> lookup fn l = Some i.
Proof.
  intros fn l i. induction l as [|[k j] l IH]; cbn; intros N H; [contradiction|].
  inversion N as [|? ? N1 N2]; subst. destruct H as [H|H].
  - injection H as -> ->. rewrite text_eqb_refl. reflexivity.
  - destruct (text_eqb fn k) eqn:E; [|apply IH; assumption].
    apply text_eqb_spec in E. subst k. exfalso. apply N1. change fn with (fst (fn, i)). apply in_map. exact H.
Qed.
Lemma exists_in : forall w fn, file_exists w fn = true <-> In fn (map fst (w_files w)).
Proof.
  intros w fn. unfold file_exists. pose proof (lookup_none fn (w_files w)) as L.
  destruct (lookup fn (w_files w)) eqn:E.
  - split; [|reflexivity]. intros _. change fn with (fst (fn, n)). apply in_map, lookup_in, E.
  - split; [discriminate|]. intro H. exfalso. apply L; auto.
Qed.

Lemma first_free_case : forall w fn f i,
  file_exists w (bak fn (first_free w fn f i)) = false
  \/ (forall k, (k < f)%nat -> file_exists w (bak fn (i + Z.of_nat k)) = true).
Proof.
  induction f as [|f IH]; intros i; [right; intros; lia|]. cbn [first_free].
  destruct (file_exists w (bak fn i)) eqn:E; [|left; exact E].
  destruct (IH (i + 1)) as [I|I]; [left; exact I|right].
  intros [|k] K; [rewrite Z.add_0_r; exact E|].
  replace (i + Z.of_nat (S k)) with (i + 1 + Z.of_nat k) by lia. apply I. lia.
Qed.
Lemma first_free_nonneg : forall w fn f i, 0 <= i -> 0 <= first_free w fn f i.
Proof.
  induction f as [|f IH]; intros i H; cbn [first_free]; [exact H|].
  destruct (file_exists w (bak fn i)); [apply IH; lia|exact H].
Qed.
Lemma first_free_free : forall w fn,
  file_exists w (bak fn (first_free w fn (S (List.length (w_files w))) 0)) = false.
Proof.
  intros w fn. destruct (first_free_case w fn (S (List.length (w_files w))) 0) as [H|H]; [exact H|].
  exfalso. set (n := S (List.length (w_files w))) in *.
  assert (I : incl (map (fun k => bak fn (Z.of_nat k)) (seq 0 n)) (map fst (w_files w))).
  { intros x X. apply in_map_iff in X. destruct X as (k & <- & K). apply in_seq in K.
    apply exists_in. apply (H k). lia. }
  apply NoDup_incl_length in I.
  - rewrite !map_length, seq_length in I. unfold n in I. lia.
  - apply Injective_map_NoDup; [|apply seq_NoDup].
    intros a b E. apply bak_inj in E; lia.
Qed.

(** ** What one operation does to the files *)

(** Every file remains, possibly under a backup name, and only grows. *)
Definition grows (w w' : world) : Prop :=
  forall fn i, found w fn i ->
    exists fn', backup_name fn fn' /\ found w' fn' i /\ exists l, w_data w' i = w_data w i ++ l.
(** Every file remains, possibly under a backup name, with the same content. *)
Definition remains (w w' : world) : Prop :=
  forall fn i, found w fn i ->
    exists fn', backup_name fn fn' /\ found w' fn' i /\ w_data w' i = w_data w i.

Lemma backup_name_trans : forall a b c, backup_name a b -> backup_name b c -> backup_name a c.
Proof. intros a b c H1 H2. induction H2; [exact H1|apply renamed; assumption]. Qed.
Lemma remains_grows : forall w w', remains w w' -> grows w w'.
Proof.
  intros w w' H fn i F. destruct (H fn i F) as (fn' & A & B & C). exists fn'. split; [exact A|]. split; [exact B|].
  exists []. rewrite app_nil_r. exact C.
Qed.
Lemma grows_refl : forall w, grows w w.
Proof.
  intros w fn i F. exists fn. split; [constructor|]. split; [exact F|]. exists []. rewrite app_nil_r. reflexivity.
Qed.
Lemma grows_trans : forall a b c, grows a b -> grows b c -> grows a c.
Proof.
  intros a b c H1 H2 fn i F. destruct (H1 fn i F) as (f1 & A & B & l & L).
  destruct (H2 f1 i B) as (f2 & A2 & B2 & l2 & L2). exists f2.
  split; [eapply backup_name_trans; eassumption|]. split; [exact B2|].
  exists (l ++ l2). rewrite L2, L, app_assoc. reflexivity.
Qed.
Lemma remains_refl : forall w, remains w w.
Proof. intros w fn i F. exists fn. split; [constructor|]. split; [exact F|reflexivity]. Qed.
Lemma remains_trans : forall a b c, remains a b -> remains b c -> remains a c.
Proof.
  intros a b c H1 H2 fn i F. destruct (H1 fn i F) as (f1 & A & B & L).
  destruct (H2 f1 i B) as (f2 & A2 & B2 & L2). exists f2.
  split; [eapply backup_name_trans; eassumption|]. split; [exact B2|congruence].
Qed.

Lemma write_grows : forall h s w, grows w (write h s w).
Proof.
  intros h s w fn i F. exists fn. split; [constructor|]. split.
  - unfold found. destruct (write_files h s w) as [-> _]. exact F.
  - destruct (handle_eq_dec h (File i)) as [->|N].
    + exists [s]. exact (content_write_same (File i) s w).
    + exists []. rewrite app_nil_r. exact (content_write_other h (File i) s w N).
Qed.
Lemma write_consistent : forall h s w, consistent w -> consistent (write h s w).
Proof. intros h s w H. unfold consistent. destruct (write_files h s w) as [-> ->]. exact H. Qed.

Lemma backup_spec : forall fn w, consistent w ->
  consistent (backup fn w) /\ remains w (backup fn w) /\ lookup fn (w_files (backup fn w)) = None
  /\ w_next (backup fn w) = w_next w /\ w_data (backup fn w) = w_data w /\ w_out (backup fn w) = w_out w.
Proof.
  intros fn w [ND NX]. unfold backup. destruct (file_exists w fn) eqn:E.
  2: { split; [split; assumption|]. split; [apply remains_refl|]. split; [|auto].
       unfold file_exists in E. destruct (lookup fn (w_files w)); [discriminate|reflexivity]. }
  set (k := first_free w fn (S (List.length (w_files w))) 0).
  pose proof (first_free_free w fn : file_exists w (bak fn k) = false) as FREE.
  assert (NB : ~ In (bak fn k) (map fst (w_files w))).
  { intro I. apply exists_in in I. congruence. }
  set (f := fun p : text * nat => if text_eqb (fst p) fn then (bak fn k, snd p) else p).
  assert (KEYS : forall l, NoDup (map fst l) -> ~ In (bak fn k) (map fst l) ->
    NoDup (map fst (map f l))
    /\ (forall x, In x (map fst (map f l)) -> x <> fn /\ (In x (map fst l) \/ (x = bak fn k /\ In fn (map fst l))))).
  { induction l as [|[a i] l IH]; cbn [map]; intros N B.
    - split; [constructor|]. intros x [].
    - cbn [fst] in *. inversion N as [|? ? N1 N2]; subst.
      destruct IH as [I1 I2]; [exact N2|intro; apply B; right; assumption|].
      unfold f at 1 3. cbn [fst snd]. destruct (text_eqb a fn) eqn:EA.
      + apply text_eqb_spec in EA. subst a. cbn [fst]. split.
        * constructor; [|exact I1]. intro X. destruct (I2 _ X) as [_ [Y|[_ Y]]].
          -- apply B. right. exact Y.
          -- apply N1. exact Y.
        * intros x [<-|X].
          -- split; [apply bak_neq|right; split; [reflexivity|left; reflexivity]].
          -- destruct (I2 _ X) as [Y1 Y2]. split; [exact Y1|]. cbn. intuition.
      + apply text_eqb_neq in EA. cbn [fst]. split.
        * constructor; [|exact I1]. intro X. destruct (I2 _ X) as [_ [Y|[Y _]]]; [apply N1; exact Y|].
          apply B. left. exact Y.
        * intros x [<-|X].
          -- split; [exact EA|left; left; reflexivity].
          -- destruct (I2 _ X) as [Y1 Y2]. split; [exact Y1|]. cbn. intuition. }
  destruct (KEYS _ ND NB) as [K1 K2].
  unfold rename. fold f. cbn [w_files w_next w_data w_out].
  assert (C : consistent (mkWorld (map f (w_files w)) (w_data w) (w_next w) (w_out w))).
  { split; [exact K1|]. cbn [w_files w_next]. intros x i I. apply in_map_iff in I.
    destruct I as ([a j] & E1 & I). unfold f in E1. cbn [fst snd] in E1.
    destruct (text_eqb a fn); injection E1; intros; subst; eapply NX; exact I. }
  split; [exact C|]. split; [|split; [|auto]].
  - intros x i F. unfold found in F. apply lookup_in in F.
    destruct (text_eqb x fn) eqn:EX.
    + apply text_eqb_spec in EX. subst x. exists (bak fn k). split; [exact (renamed fn fn k (same_name fn))|].
      split; [|reflexivity]. apply in_lookup; [apply C|]. cbn [w_files]. apply in_map_iff.
      exists (fn, i). split; [|exact F]. unfold f. cbn [fst snd]. rewrite text_eqb_refl. reflexivity.
    + exists x. split; [constructor|]. split; [|reflexivity].
      apply in_lookup; [apply C|]. cbn [w_files]. apply in_map_iff.
      exists (x, i). split; [|exact F]. unfold f. cbn [fst]. rewrite EX. reflexivity.
  - apply lookup_none. intro X. destruct (K2 _ X) as [Y _]. contradiction.
Qed.

(** Opening a template. *)
Lemma open_new : forall fn w, consistent w ->
  exists w', open_w fn (backup fn w) = (w_next w, w') /\ consistent w' /\ remains w w'
    /\ found w' fn (w_next w) /\ w_data w' (w_next w) = [] /\ w_next w' = S (w_next w)
    /\ w_out w' = w_out w /\ (forall j, j <> w_next w -> w_data w' j = w_data w j).
Proof.
  intros fn w C. destruct (backup_spec fn w C) as (C' & R & L & N & D & O).
  unfold open_w. rewrite L. eexists. split; [rewrite N; reflexivity|].
  split; [|split; [|split; [|split; [|split; [|split]]]]].
  - destruct C' as [C1 C2]. split; cbn [w_files w_next map].
    + constructor; [|exact C1]. cbn [fst]. apply lookup_none. exact L.
    + intros x i [E|I]; [injection E; intros; lia|]. apply C2 in I. lia.
  - intros x i F. destruct (R x i F) as (x' & B & F' & D'). exists x'. split; [exact B|].
    assert (i < w_next w)%nat.
    { rewrite <- N. eapply C'. apply lookup_in. exact F'. }
    split.
    + unfold found. cbn [w_files lookup]. destruct (text_eqb x' fn) eqn:E; [|exact F'].
      apply text_eqb_spec in E. subst x'. unfold found in F'. congruence.
    + cbn [w_data]. destruct (Nat.eqb_spec i (w_next w)); [lia|exact D'].
  - unfold found. cbn [w_files lookup]. rewrite text_eqb_refl. reflexivity.
  - cbn [w_data]. rewrite Nat.eqb_refl. reflexivity.
  - reflexivity.
  - exact O.
  - intros j J. cbn [w_data]. destruct (Nat.eqb_spec j (w_next w)); [contradiction|]. rewrite D. reflexivity.
Qed.

Section Session.
  Variable fmt : text -> Z -> text.

  Lemma open_logfile_grows : forall g w, consistent w ->
    consistent (snd (open_logfile fmt (g, w))) /\ grows w (snd (open_logfile fmt (g, w))).
  Proof.
    intros g w C. unfold open_logfile.
    destruct (l_logfile g); [split; [exact C|apply grows_refl]|].
    destruct (l_logfn g) as [n|]; [|split; [exact C|apply grows_refl]].
    destruct (open_new (fmt n (l_it g)) w C) as (w' & E & C' & R & _). rewrite E.
    split; [exact C'|apply remains_grows; exact R].
  Qed.

  Lemma print_grows : forall s copy g w, consistent w ->
    consistent (snd (print s copy (g, w))) /\ grows w (snd (print s copy (g, w))).
  Proof.
    intros s copy g w C. unfold print. cbv zeta.
    set (w1 := match copy with Some h => _ | None => w end).
    assert (W1 : consistent w1 /\ grows w w1).
    { unfold w1. destruct copy as [h|]; [|split; [exact C|apply grows_refl]].
      destruct (match l_logfile g with Some h' => handle_eqb h' h | None => false end);
        [split; [exact C|apply grows_refl]|].
      split; [apply write_consistent; exact C|apply write_grows]. }
    destruct (l_logfile g) as [h|]; cbn [snd]; [|exact W1].
    split; [apply write_consistent; apply W1|]. eapply grows_trans; [apply W1|apply write_grows].
  Qed.

  Definition fine (st st' : state) : Prop :=
    consistent (snd st) -> consistent (snd st') /\ grows (snd st) (snd st').
  Lemma fine_trans : forall a b c, fine a b -> fine b c -> fine a c.
  Proof.
    unfold fine. intros a b c H1 H2 C. destruct (H1 C) as [C1 G1]. destruct (H2 C1) as [C2 G2].
    split; [exact C2|eapply grows_trans; eassumption].
  Qed.
  Lemma fine_print : forall s copy st, fine st (print s copy st).
  Proof. intros s copy [g w] C. apply print_grows. exact C. Qed.
  Lemma fine_open : forall st, fine st (open_logfile fmt st).
  Proof. intros [g w] C. apply open_logfile_grows. exact C. Qed.
  Lemma fine_world : forall st g, fine st (g, snd st).
  Proof. intros st g C. split; [exact C|apply grows_refl]. Qed.
  Lemma fine_prints : forall l st, fine st (fold_left (fun s line => print line None s) l st).
  Proof.
    induction l as [|x l IH]; intros st; cbn [fold_left]; [intro C; split; [exact C|apply grows_refl]|].
    eapply fine_trans; [apply fine_print|apply IH].
  Qed.

  Lemma fine_status : forall c st, fine st (fst (status fmt c st)).
  Proof.
    intros c st. unfold status. destruct (negb _); [intro C; split; [exact C|apply grows_refl]|].
    eapply fine_trans; [apply fine_open|]. destruct (open_logfile fmt st) as [g w].
    destruct (if l_outevery g =? 1 then _ else _) as [dp oc].
    destruct dp; [|exact (fine_world (g, w) _)].
    cbv zeta. destruct (c_vals c) as [|v vs]; [exact (fine_world (g, w) _)|]. cbn [fst].
    destruct (l_sepcounter g - 1 <=? 0).
    - eapply fine_trans; [exact (fine_world (g, w) (set_counters oc (l_sepcounter g - 1) g))|].
      cbn [snd]. eapply fine_trans; [apply (fine_print (header_line (c_hdr c) (v :: vs)) None)|].
      destruct (print (header_line (c_hdr c) (v :: vs)) None (set_counters oc (l_sepcounter g - 1) g, w)) as [g' w'].
      eapply fine_trans; [exact (fine_world (g', w') (set_counters oc (l_sepevery g') g'))|]. apply fine_print.
    - eapply fine_trans; [exact (fine_world (g, w) (set_counters oc (l_sepcounter g - 1) g))|]. apply fine_print.
  Qed.

  Definition harmless (o : op) : Prop :=
    match o with Attach (Name fn) => is_template fn = true | _ => True end.

  Lemma fine_op : forall o st, harmless o -> fine st (fst (do_op fmt o st)).
  Proof.
    intros [[c|caller s|caller s]|n| |[fn|h]] st H; cbn [do_op do_request fst harmless] in *.
    - apply fine_status.
    - unfold pr. eapply fine_trans; [apply fine_open|apply fine_print].
    - unfold warn. eapply fine_trans; [apply fine_open|apply fine_print].
    - destruct st as [g w]. apply (fine_world (g, w)).
    - destruct st as [g w]. apply (fine_world (g, w)).
    - unfold set_logfile. rewrite H. cbv zeta.
      eapply fine_trans; [exact (fine_world st (set_fn (Some fn) (fst st)))|].
      eapply fine_trans; [apply fine_open|].
      destruct (l_logfile (fst (open_logfile fmt (set_fn (Some fn) (fst st), snd st)))).
      + eapply fine_trans; [apply fine_prints|apply fine_world].
      + apply fine_world.
    - unfold set_logfile. cbv zeta.
      eapply fine_trans; [exact (fine_world st (set_file h (fst st)))|].
      destruct (l_logfile (fst (set_file h (fst st), snd st))).
      + eapply fine_trans; [apply fine_prints|apply fine_world].
      + apply fine_world.
  Qed.

  Lemma fine_session : forall os st, Forall harmless os -> fine st (session fmt os st).
  Proof.
    induction os as [|o os IH]; intros st H; cbn [session]; [intro C; split; [exact C|apply grows_refl]|].
    inversion H as [|? ? H1 H2]; subst. exact (fine_trans _ _ _ (fine_op o st H1) (IH _ H2)).
  Qed.

  (** ** Attaching late *)
  Lemma prints_attached : forall l g w h, l_logfile g = Some h ->
    fold_left (fun s line => print line None s) l (g, w) = (g, writes h l w).
  Proof.
    induction l as [|x l IH]; intros g w h H; [reflexivity|]. cbn [fold_left].
    rewrite (print_attached g w h x H). apply IH. exact H.
  Qed.

  Definition late (o : op) : Prop := match o with Attach _ => False | _ => True end.
  Definition unattached (g : logger) : Prop := l_logfile g = None /\ l_logfn g = None.
  Definition attach (i : nat) (st : state) : state :=
    (set_buffer [] (set_file (Some (File i)) (fst st)), writes (File i) (l_buffer (fst st)) (snd st)).

  Lemma writes_stdout : forall i l s w, writes (File i) l (write Stdout s w) = write Stdout s (writes (File i) l w).
  Proof.
    intros i l. induction l as [|x l IH]; intros s w; [reflexivity|].
    change (writes (File i) l (write (File i) x (write Stdout s w)) = write Stdout s (writes (File i) l (write (File i) x w))).
    rewrite <- IH. reflexivity.
  Qed.

  Lemma open_unattached : forall g w, unattached g -> open_logfile fmt (g, w) = (g, w).
  Proof. intros g w [H1 H2]. unfold open_logfile. rewrite H1, H2. reflexivity. Qed.
  Lemma print_unattached : forall s g w, unattached g ->
    print s None (g, w) = (set_buffer (l_buffer g ++ [s]) g, w).
  Proof. intros s g w [H _]. unfold print. rewrite H. reflexivity. Qed.
  Lemma attach_print : forall i s g w, unattached g ->
    print s None (attach i (g, w)) = attach i (print s None (g, w)).
  Proof.
    intros i s g w [H1 H2]. unfold attach at 1. cbn [fst snd].
    rewrite (print_attached _ _ (File i)) by reflexivity. unfold print. rewrite H1. unfold attach. cbn [fst snd].
    cbn [set_buffer l_buffer]. rewrite writes_app. reflexivity.
  Qed.
  Lemma attach_warn : forall i s g w, unattached g ->
    print s (Some Stdout) (attach i (g, w)) = attach i (print s (Some Stdout) (g, w)).
  Proof.
    intros i s g w [H1 H2]. unfold attach at 1. cbn [fst snd]. unfold print. rewrite H1.
    cbn [set_buffer set_file l_logfile handle_eqb]. unfold attach. cbn [fst snd set_buffer l_buffer].
    rewrite writes_app, writes_stdout. reflexivity.
  Qed.

  Lemma attach_op : forall i o g w, late o -> unattached g ->
    do_op fmt o (attach i (g, w)) = (attach i (fst (do_op fmt o (g, w))), snd (do_op fmt o (g, w)))
    /\ unattached (fst (fst (do_op fmt o (g, w)))).
  Proof.
    intros i [[c|caller s|caller s]|n| |t] g w L U; cbn [do_op do_request late fst snd] in *; [| | | | |contradiction].
    - unfold status. destruct (negb _); [split; [reflexivity|exact U]|].
      rewrite (open_unattached g w U). unfold attach at 1. cbn [fst snd].
      rewrite (open_attached fmt _ _ (File i)) by reflexivity.
      cbn [set_buffer set_file l_outevery l_outcounter l_sepcounter l_sepevery].
      destruct (if l_outevery g =? 1 then _ else _) as [dp oc].
      destruct dp; [|split; [reflexivity|exact U]]. cbv zeta.
      destruct (c_vals c) as [|v vs]; [split; [reflexivity|exact U]|]. cbn [fst snd].
      assert (P : forall sc, unattached (set_counters oc sc g)) by (intro; exact U).
      destruct (l_sepcounter g - 1 <=? 0).
      + rewrite (print_attached _ _ (File i)) by reflexivity. cbv beta iota.
        rewrite (print_attached _ _ (File i)) by reflexivity.
        rewrite (print_unattached _ _ _ (P _)). cbv beta iota.
        rewrite print_unattached by exact U.
        split; [|exact U]. unfold attach. cbn [fst snd set_buffer set_counters set_file l_buffer].
        rewrite !writes_app. reflexivity.
      + rewrite (print_attached _ _ (File i)) by reflexivity.
        rewrite (print_unattached _ _ _ (P _)).
        split; [|exact U]. unfold attach. cbn [fst snd set_buffer set_counters set_file l_buffer].
        rewrite !writes_app. reflexivity.
    - unfold pr. rewrite (open_unattached g w U).
      change (open_logfile fmt (attach i (g, w))) with (attach i (g, w)).
      split; [f_equal; exact (attach_print i (pr_line caller s) g w U)|].
      unfold print. destruct U as [U1 U2]. rewrite U1. split; [exact U1|exact U2].
    - unfold warn. rewrite (open_unattached g w U).
      change (open_logfile fmt (attach i (g, w))) with (attach i (g, w)).
      split; [f_equal; exact (attach_warn i _ g w U)|].
      unfold print. destruct U as [U1 U2]. rewrite U1. split; [exact U1|exact U2].
    - split; [reflexivity|exact U].
    - destruct U as [U1 U2]. split; [|split; cbn; [rewrite U2; exact U1|exact U2]].
      unfold attach. cbn [fst snd iteration_finished set_buffer set_file l_logfn l_buffer l_sepevery l_outevery l_it l_logfile].
      rewrite U2. reflexivity.
  Qed.

  Lemma attach_session : forall i os g w, Forall late os -> unattached g ->
    session fmt os (attach i (g, w)) = attach i (session fmt os (g, w))
    /\ unattached (fst (session fmt os (g, w))).
  Proof.
    intros i os. induction os as [|o os IH]; intros g w L U; [split; [reflexivity|exact U]|].
    inversion L; subst. cbn [session].
    destruct (attach_op i o g w H1 U) as [E U']. rewrite E. cbn [fst].
    destruct (fst (do_op fmt o (g, w))) as [g' w'] eqn:EQ. cbn [fst] in *.
    apply IH; assumption.
  Qed.

  Lemma set_stream : forall i g w, set_logfile fmt (Stream (Some (File i))) (g, w) = attach i (g, w).
  Proof.
    intros i g w. unfold set_logfile. cbv zeta. cbn [fst snd set_file l_logfile l_buffer].
    rewrite (prints_attached _ _ _ (File i)) by reflexivity. reflexivity.
  Qed.
  Lemma set_plain : forall fn g w, is_template fn = false ->
    set_logfile fmt (Name fn) (g, w) = attach (fst (open_w fn w)) (g, snd (open_w fn w)).
  Proof.
    intros fn g w T. unfold set_logfile. rewrite T. cbv zeta. cbn [fst snd].
    destruct (open_w fn w) as [i w']. cbn [fst snd set_file l_logfile l_buffer].
    rewrite (prints_attached _ _ _ (File i)) by reflexivity. reflexivity.
  Qed.

  (** Operations without a file touch nothing but the screen. *)
  Definition on_screen (l : list text) (w : world) : world :=
    mkWorld (w_files w) (w_data w) (w_next w) (w_out w ++ l).
  Lemma late_op_screen : forall o g, late o -> unattached g ->
    exists g' l, forall w, fst (do_op fmt o (g, w)) = (g', on_screen l w).
  Proof.
    assert (Z : forall w, w = on_screen [] w).
    { intros [a b c d]. unfold on_screen. cbn. rewrite app_nil_r. reflexivity. }
    intros [[c|caller s|caller s]|n| |t] g L U; cbn [do_op do_request late fst] in *; [| | | | |contradiction].
    - unfold status. destruct (negb _); [exists g, []; intro w; cbn [fst]; f_equal; apply Z|].
      destruct (if l_outevery g =? 1 then (true, l_outcounter g) else
        if l_outcounter g - 1 <=? 0 then (true, l_outevery g) else (c_force c, l_outcounter g - 1)) as [dp oc] eqn:DP.
      destruct dp.
      2: { eexists _, []. intro w. rewrite (open_unattached g w U), DP. cbn [fst]. f_equal. apply Z. }
      destruct (c_vals c) as [|v vs].
      { eexists _, []. intro w. rewrite (open_unattached g w U), DP. cbn [fst]. f_equal. apply Z. }
      destruct (l_sepcounter g - 1 <=? 0) eqn:SC; eexists _, []; intro w;
        rewrite (open_unattached g w U), DP; cbv zeta; rewrite SC; destruct U as [U1 U2];
        unfold print; cbn [set_counters set_buffer l_logfile l_buffer l_sepevery]; rewrite U1;
        cbn [set_counters set_buffer l_logfile l_buffer l_sepevery fst]; try rewrite U1; cbn [fst];
        (rewrite (Z w) at 1; reflexivity).
    - eexists _, []. intro w. unfold pr. rewrite (open_unattached g w U). unfold print.
      destruct U as [U1 U2]. rewrite U1. rewrite (Z w) at 1. reflexivity.
    - eexists _, [_]. intro w. unfold warn. rewrite (open_unattached g w U). unfold print.
      destruct U as [U1 U2]. rewrite U1. reflexivity.
    - eexists _, []. intro w. unfold set_outevery. rewrite (Z w) at 1. reflexivity.
    - eexists _, []. intro w. unfold iteration_finished. rewrite (Z w) at 1. reflexivity.
  Qed.
  Lemma late_session_screen : forall os g, Forall late os -> unattached g ->
    exists g' l, forall w, session fmt os (g, w) = (g', on_screen l w).
  Proof.
    induction os as [|o os IH]; intros g L U.
    - exists g, []. intros [a b c d]. cbn. unfold on_screen. cbn. rewrite app_nil_r. reflexivity.
    - inversion L; subst. destruct (late_op_screen o g H1 U) as (g1 & l1 & E1).
      assert (U1 : unattached g1).
      { destruct (attach_op 0 o g (mkWorld [] (fun _ => []) 0 []) H1 U) as [_ U1].
        rewrite E1 in U1. exact U1. }
      destruct (IH g1 H2 U1) as (g' & l & E). exists g', (l1 ++ l). intro w. cbn [session].
      rewrite E1, E. unfold on_screen. cbn. rewrite app_assoc. reflexivity.
  Qed.
  Lemma open_w_screen : forall fn l w,
    open_w fn (on_screen l w) = (fst (open_w fn w), on_screen l (snd (open_w fn w))).
  Proof.
    intros fn l w. unfold open_w. cbn [on_screen w_files w_next w_data w_out].
    destruct (lookup fn (w_files w)); reflexivity.
  Qed.

  Lemma plain_late : forall fn os g w, is_template fn = false -> Forall late os -> unattached g ->
    set_logfile fmt (Name fn) (session fmt os (g, w)) = session fmt os (set_logfile fmt (Name fn) (g, w)).
  Proof.
    intros fn os g w T L U. rewrite (set_plain fn g w T).
    destruct (attach_session (fst (open_w fn w)) os g (snd (open_w fn w)) L U) as [E _]. rewrite E.
    destruct (late_session_screen os g L U) as (g' & l & S). rewrite !S.
    rewrite (set_plain fn g' _ T), open_w_screen. reflexivity.
  Qed.

  (** ** One file per iteration *)
  Lemma open_idem : forall g w, open_logfile fmt (open_logfile fmt (g, w)) = open_logfile fmt (g, w).
  Proof.
    intros g w. unfold open_logfile at 2 3. destruct (l_logfile g) as [h|] eqn:E.
    - apply (open_attached fmt g w h E).
    - destruct (l_logfn g) eqn:F; [|unfold open_logfile; rewrite E, F; reflexivity].
      destruct (open_w _ _) as [i w']. apply (open_attached fmt _ w' (File i)). reflexivity.
  Qed.
  Lemma request_open : forall r st, acceptable r -> do_request fmt r st = do_request fmt r (open_logfile fmt st).
  Proof.
    intros [c|caller s|caller s] [g w] A; cbn [do_request].
    - destruct A as [A _]. unfold status. rewrite A, Nat.eqb_refl. cbn [negb]. rewrite open_idem. reflexivity.
    - unfold pr. rewrite open_idem. reflexivity.
    - unfold warn. rewrite open_idem. reflexivity.
  Qed.
  Lemma session_run : forall rs st, Forall acceptable rs ->
    (forall g w, exists g' w', run fmt rs (g, w) = ((g', w'), Ret tt)) \/ True ->
    forall st', run fmt rs st = (st', Ret tt) -> session fmt (map Request rs) st = st'.
  Proof.
    induction rs as [|r rs IH]; intros st A _ st' H; cbn [map session run] in *; [congruence|].
    inversion A; subst. cbn [do_op]. destruct (do_request fmt r st) as [st1 [u|e]]; [|discriminate].
    cbn [fst]. apply IH; auto.
  Qed.

  (** One iteration of a logger with a file name template. *)
  Definition waiting (n : text) (it oe se : Z) (g : logger) : Prop :=
    l_logfn g = Some n /\ l_logfile g = None /\ l_it g = it /\ l_outevery g = oe /\ l_sepevery g = se
    /\ l_buffer g = [] .

  Lemma iteration_file : forall n oe se r rs it g w, Forall acceptable (r :: rs) -> consistent w ->
    waiting n it oe se g ->
    exists g' w', session fmt (map Request (r :: rs) ++ [Finished]) (g, w) = (g', w')
      /\ waiting n (it + 1) oe se g' /\ consistent w' /\ remains w w'
      /\ found w' (fmt n it) (w_next w) /\ w_next w' = S (w_next w)
      /\ w_data w' (w_next w) = expected oe se 0 0 (r :: rs)
      /\ w_out w' = w_out w ++ warnings (r :: rs).
  Proof.
    intros n oe se r rs it g w A C (W1 & W2 & W3 & W4 & W5 & W6).
    destruct (open_new (fmt n it) w C) as (w1 & E & C1 & R1 & F1 & D1 & N1 & O1 & X1).
    set (g1 := set_file (Some (File (w_next w))) (set_counters (l_outevery g) 0 g)).
    assert (OP : open_logfile fmt (g, w) = (g1, w1)).
    { unfold open_logfile. rewrite W2, W1, W3, E. reflexivity. }
    assert (RC : reset_counters g1) by (split; reflexivity).
    destruct (run_attached fmt (r :: rs) g1 w1 (File (w_next w)) 0 0 eq_refl A (fresh_out g1 RC) (fresh_sep g1 RC))
      as (g2 & w2 & RUN & SS & CT & SO & OT & FI & NX).
    assert (RUN0 : run fmt (r :: rs) (g, w) = ((g2, w2), Ret tt)).
    { rewrite <- RUN. cbn [run]. inversion A; subst. rewrite (request_open r (g, w)) by assumption. rewrite OP. reflexivity. }
    assert (S0 : session fmt (map Request (r :: rs)) (g, w) = (g2, w2)).
    { apply session_run; auto. }
    assert (SAPP : forall a b st, session fmt (a ++ b) st = session fmt b (session fmt a st)).
    { induction a as [|o a IHa]; intros b st; [reflexivity|]. cbn [app session]. apply IHa. }
    rewrite SAPP, S0. cbn [session do_op fst iteration_finished].
    eexists _, w2. split; [reflexivity|].
    destruct SS as (S1 & S2 & S3 & S4 & S5 & S6).
    change (l_sepevery g1) with (l_sepevery g) in *. change (l_outevery g1) with (l_outevery g) in *.
    change (l_it g1) with (l_it g) in *. change (l_logfn g1) with (l_logfn g) in *.
    change (l_buffer g1) with (l_buffer g) in *.
    split. { unfold waiting. cbn [l_logfn l_logfile l_it l_outevery l_sepevery l_buffer].
      rewrite S4, W1. repeat split; congruence. }
    split. { unfold consistent. rewrite FI, NX. exact C1. }
    split. { intros fn i F. destruct (R1 fn i F) as (fn' & B & F' & D'). exists fn'. split; [exact B|].
      split; [unfold found; rewrite FI; exact F'|]. rewrite OT; [exact D'|].
      intro K. injection K as K. apply lookup_in in F. apply C in F. lia. }
    split. { unfold found. rewrite FI. exact F1. }
    split. { rewrite NX. exact N1. }
    split. { change (content (File (w_next w)) w2 = expected oe se 0 0 (r :: rs)). rewrite CT. cbn [content].
      rewrite D1, W4, W5. reflexivity. }
    rewrite (SO ltac:(discriminate)), O1. reflexivity.
  Qed.

  Definition iteration (rs : list request) : list op := map Request rs ++ [Finished].

  Lemma iterations_files : forall n oe se segs it g w, Forall (Forall acceptable) segs -> consistent w ->
    waiting n it oe se g ->
    exists g' w', session fmt (flat_map iteration segs) (g, w) = (g', w')
      /\ waiting n (it + Z.of_nat (List.length segs)) oe se g' /\ consistent w' /\ remains w w'
      /\ (w_next w <= w_next w')%nat
      /\ (exists file : nat -> nat, forall k rs, nth_error segs k = Some rs -> rs <> [] ->
           (exists fn, backup_name (fmt n (it + Z.of_nat k)) fn /\ found w' fn (file k))
           /\ (w_next w <= file k)%nat /\ w_data w' (file k) = expected oe se 0 0 rs
           /\ forall k', (k' < k)%nat -> nth_error segs k' <> Some [] -> file k' <> file k)
      /\ w_out w' = w_out w ++ flat_map warnings segs.
  Proof.
    intros n oe se segs. induction segs as [|rs segs IH]; intros it g w A C W.
    - exists g, w. cbn. rewrite Z.add_0_r, app_nil_r. split; [reflexivity|]. split; [exact W|]. split; [exact C|].
      split; [apply remains_refl|]. split; [lia|]. split; [|reflexivity].
      exists (fun _ => 0%nat). intros [|k] rs H; discriminate.
    - inversion A as [|? ? A1 A2]; subst. cbn [flat_map].
      assert (SAPP : forall a b st, session fmt (a ++ b) st = session fmt b (session fmt a st)).
      { induction a as [|o a IHa]; intros b st; [reflexivity|]. cbn [app session]. apply IHa. }
      rewrite SAPP.
      assert (FIRST : exists g1 w1, session fmt (iteration rs) (g, w) = (g1, w1)
        /\ waiting n (it + 1) oe se g1 /\ consistent w1 /\ remains w w1 /\ (w_next w <= w_next w1)%nat
        /\ (rs <> [] -> (w_next w < w_next w1)%nat /\ found w1 (fmt n it) (w_next w) /\ w_data w1 (w_next w) = expected oe se 0 0 rs)
        /\ w_out w1 = w_out w ++ warnings rs).
      { destruct rs as [|r rs].
        - unfold iteration. cbn [map app session do_op fst iteration_finished warnings].
          eexists _, w. split; [reflexivity|]. destruct W as (W1 & W2 & W3 & W4 & W5 & W6).
          split. { unfold waiting. cbn [l_logfn l_logfile l_it l_outevery l_sepevery l_buffer].
            rewrite W1. repeat split; congruence. }
          split; [exact C|]. split; [apply remains_refl|]. split; [lia|]. split; [contradiction|].
          rewrite app_nil_r. reflexivity.
        - destruct (iteration_file n oe se r rs it g w A1 C W) as (g1 & w1 & E & W1 & C1 & R1 & F1 & N1 & D1 & O1).
          exists g1, w1. split; [exact E|]. split; [exact W1|]. split; [exact C1|]. split; [exact R1|].
          split; [lia|]. split; [intros _; split; [lia|split; assumption]|exact O1]. }
      destruct FIRST as (g1 & w1 & E1 & W1 & C1 & R1 & N1 & F1 & O1). rewrite E1.
      destruct (IH (it + 1) g1 w1 A2 C1 W1) as (g' & w' & E & W' & C' & R & N & F & O).
      exists g', w'. split; [exact E|]. split.
      { replace (it + Z.of_nat (List.length (rs :: segs))) with (it + 1 + Z.of_nat (List.length segs))
          by (cbn [List.length]; lia). exact W'. }
      split; [exact C'|]. split; [eapply remains_trans; eassumption|]. split; [lia|]. split.
      + destruct F as [file F]. exists (fun k => match k with O => w_next w | S k => file k end).
        intros [|k] rs' K NE.
        * cbn in K. injection K as <-. destruct (F1 NE) as (_ & FF & FD). destruct (R _ _ FF) as (fn & B & FN & FE).
          rewrite Z.add_0_r. split; [exists fn; split; assumption|]. split; [lia|]. split; [congruence|]. intros; lia.
        * cbn in K. destruct (F k rs' K NE) as ((fn & B & FN) & L & D & DI).
          replace (it + Z.of_nat (S k)) with (it + 1 + Z.of_nat k) by lia.
          split; [exists fn; split; assumption|]. split; [lia|]. split; [exact D|].
          intros [|k'] K' NE'.
          -- cbn in NE'. assert (NE1 : rs <> []) by congruence. destruct (F1 NE1) as [LT _]. lia.
          -- apply DI; [lia|exact NE'].
      + rewrite O, O1, <- app_assoc. reflexivity.
  Qed.
End Session.
