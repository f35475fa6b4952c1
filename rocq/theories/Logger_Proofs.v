(** * Proofs about the logger: counters and files *)
From Coq Require Import Reals ZArith Lia List Arith Bool Ascii String FunctionalExtensionality.
From Verif Require Import Py Logger_Model Logger_Spec.
Import ListNotations.
Local Open Scope string_scope.
Local Open Scope list_scope.
Local Open Scope Z_scope.

(** ** Streams *)
Lemma handle_eqb_spec : forall a b, handle_eqb a b = true <-> a = b.
Proof.
  intros [|i] [|j]; cbn; split; intro H; try discriminate; try reflexivity.
  - apply Nat.eqb_eq in H. congruence.
  - injection H as ->. apply Nat.eqb_refl.
Qed.
Lemma handle_eq_dec : forall a b : handle, {a = b} + {a <> b}.
Proof. decide equality. apply Nat.eq_dec. Qed.

Lemma content_write_same : forall h s w, content h (write h s w) = content h w ++ [s].
Proof. intros [|i] s w; cbn; [reflexivity|]. rewrite Nat.eqb_refl. reflexivity. Qed.
Lemma content_write_other : forall h h' s w, h <> h' -> content h' (write h s w) = content h' w.
Proof.
  intros [|i] [|j] s w H; cbn; try reflexivity; [contradiction|].
  destruct (Nat.eqb_spec j i); [subst; contradiction|reflexivity].
Qed.
Lemma write_files : forall h s w, w_files (write h s w) = w_files w /\ w_next (write h s w) = w_next w.
Proof. intros [|i] s w; split; reflexivity. Qed.

Definition writes (h : handle) (l : list text) (w : world) : world :=
  fold_left (fun w s => write h s w) l w.
Lemma content_writes_same : forall h l w, content h (writes h l w) = content h w ++ l.
Proof.
  intros h l. induction l as [|s l IH]; intros w; cbn [writes fold_left]; [rewrite app_nil_r; reflexivity|].
  change (content h (writes h l (write h s w)) = content h w ++ s :: l).
  rewrite IH, content_write_same, <- app_assoc. reflexivity.
Qed.
Lemma content_writes_other : forall h h' l w, h <> h' -> content h' (writes h l w) = content h' w.
Proof.
  intros h h' l. induction l as [|s l IH]; intros w H; [reflexivity|].
  change (content h' (writes h l (write h s w)) = content h' w).
  rewrite IH by exact H. apply content_write_other. exact H.
Qed.
Lemma writes_app : forall h l l' w, writes h (l ++ l') w = writes h l' (writes h l w).
Proof. intros. unfold writes. apply fold_left_app. Qed.

(** ** Counters *)
Definition out_ok (n oc : Z) (i : nat) : Prop :=
  n = 1 \/ (n <= 0 /\ oc = n) \/ (2 <= n /\ oc = n - Z.of_nat i mod n).
Definition sep_ok (sep sc : Z) (p : nat) : Prop :=
  (p = 0%nat /\ sc = 0) \/ ((0 < p)%nat /\ sep <= 0 /\ sc = sep)
  \/ ((0 < p)%nat /\ 1 <= sep /\ sc = sep - Z.of_nat (p - 1) mod sep).

Lemma mod_succ : forall i n, 2 <= n ->
  (Z.of_nat (S i) mod n = 0 /\ Z.of_nat i mod n = n - 1)
  \/ (Z.of_nat (S i) mod n = Z.of_nat i mod n + 1 /\ Z.of_nat i mod n < n - 1).
Proof.
  intros i n H. pose proof (Z.mod_pos_bound (Z.of_nat i) n ltac:(lia)) as B.
  pose proof (Z.div_mod (Z.of_nat i) n ltac:(lia)) as D.
  rewrite Nat2Z.inj_succ. destruct (Z.eq_dec (Z.of_nat i mod n) (n - 1)) as [E|E].
  - left. split; [|exact E].
    replace (Z.succ (Z.of_nat i)) with (0 + (Z.of_nat i / n + 1) * n) by nia.
    rewrite Z.mod_add by lia. apply Z.mod_0_l. lia.
  - right. split; [|lia].
    replace (Z.succ (Z.of_nat i)) with ((Z.of_nat i mod n + 1) + (Z.of_nat i / n) * n) by nia.
    rewrite Z.mod_add by lia. apply Z.mod_small. lia.
Qed.

Lemma out_step : forall n oc i c, out_ok n oc i ->
  exists oc',
  (if n =? 1 then (true, oc)
   else if oc - 1 <=? 0 then (true, n) else (c_force c, oc - 1)) = (due n i c, oc')
  /\ out_ok n oc' (S i).
Proof.
  intros n oc i c H. unfold due. destruct H as [H|[[H1 H2]|[H1 H2]]].
  - subst n. rewrite Z.eqb_refl. exists oc. split; [|left; reflexivity].
    f_equal. cbn. rewrite orb_true_r. reflexivity.
  - destruct (Z.eqb_spec n 1); [lia|]. destruct (Z.leb_spec (oc - 1) 0); [|lia].
    exists n. split; [|right; left; split; [exact H1|reflexivity]].
    f_equal. destruct (Z.leb_spec n 1); [|lia]. cbn. rewrite orb_true_r. reflexivity.
  - destruct (Z.eqb_spec n 1); [lia|]. destruct (Z.leb_spec n 1); [lia|].
    destruct (mod_succ i n H1) as [[M1 M2]|[M1 M2]]; rewrite M1.
    + destruct (Z.leb_spec (oc - 1) 0); [|lia]. exists n. split.
      * f_equal. cbn. rewrite orb_true_r. reflexivity.
      * right; right. split; [exact H1|]. rewrite M1. lia.
    + destruct (Z.leb_spec (oc - 1) 0); [lia|]. exists (oc - 1). split.
      * f_equal. pose proof (Z.mod_pos_bound (Z.of_nat i) n ltac:(lia)).
        destruct (Z.eqb_spec (Z.of_nat i mod n + 1) 0); [lia|]. cbn. rewrite orb_false_r. reflexivity.
      * right; right. split; [exact H1|]. rewrite M1. lia.
Qed.

Lemma sep_step : forall sep sc p, sep_ok sep sc p ->
  (sc - 1 <=? 0) = header_due sep p
  /\ sep_ok sep (if sc - 1 <=? 0 then sep else sc - 1) (S p).
Proof.
  intros sep sc p H. unfold header_due.
  assert (NEXT : sep <= 0 \/ sep = 1 \/ 2 <= sep) by lia.
  assert (FULL : Z.of_nat p mod sep = 0 -> 1 <= sep -> sep_ok sep sep (S p)).
  { intros Z0 S1. right; right. split; [lia|]. split; [exact S1|].
    replace (S p - 1)%nat with p by lia. rewrite Z0. lia. }
  assert (ONE : sep = 1 -> sep_ok sep sep (S p)).
  { intros ->. apply FULL; [apply Z.mod_1_r|lia]. }
  assert (NEG : sep <= 0 -> sep_ok sep sep (S p)).
  { intro L. right; left. split; [lia|]. split; [exact L|reflexivity]. }
  destruct H as [[H1 H2]|[(H1 & H2 & H3)|(H1 & H2 & H3)]].
  - subst. cbn [Z.sub Z.leb Z.compare]. split.
    + destruct (Z.leb_spec sep 1); [reflexivity|]. rewrite Zmod_0_l. reflexivity.
    + destruct NEXT as [L|[L|L]]; [apply NEG|apply ONE|apply FULL]; try lia. apply Zmod_0_l.
  - destruct (Z.leb_spec (sc - 1) 0); [|lia]. destruct (Z.leb_spec sep 1); [|lia].
    split; [reflexivity|apply NEG; exact H2].
  - destruct p as [|p]; [lia|]. replace (S p - 1)%nat with p in H3 by lia.
    destruct NEXT as [L|[L|L]]; [lia| |].
    + subst sep. rewrite Z.mod_1_r in H3. subst sc. split; [reflexivity|]. apply ONE. reflexivity.
    + destruct (Z.leb_spec sep 1); [lia|].
      destruct (mod_succ p sep L) as [[M1 M2]|[M1 M2]].
      * destruct (Z.leb_spec (sc - 1) 0); [|lia]. rewrite M1. split; [reflexivity|].
        apply FULL; [exact M1|lia].
      * pose proof (Z.mod_pos_bound (Z.of_nat p) sep ltac:(lia)).
        destruct (Z.leb_spec (sc - 1) 0); [lia|]. split.
        -- destruct (Z.eqb_spec (Z.of_nat (S p) mod sep) 0); [lia|reflexivity].
        -- right; right. split; [lia|]. split; [lia|].
           replace (S (S p) - 1)%nat with (S p) by lia. rewrite M1. lia.
Qed.

(** ** Runs of an attached logger *)
Definition same_setup (g g' : logger) : Prop :=
  l_sepevery g' = l_sepevery g /\ l_outevery g' = l_outevery g /\ l_it g' = l_it g
  /\ l_logfn g' = l_logfn g /\ l_logfile g' = l_logfile g /\ l_buffer g' = l_buffer g.
Lemma same_setup_refl : forall g, same_setup g g.
Proof. intro g. repeat split; reflexivity. Qed.
Lemma same_setup_trans : forall a b c, same_setup a b -> same_setup b c -> same_setup a c.
Proof. unfold same_setup. intros a b c. intuition congruence. Qed.
Lemma same_setup_counters : forall o s g, same_setup g (set_counters o s g).
Proof. intros. repeat split; reflexivity. Qed.

Section Runs.
  Variable fmt : text -> Z -> text.

  Lemma open_attached : forall g w h, l_logfile g = Some h -> open_logfile fmt (g, w) = (g, w).
  Proof. intros g w h H. unfold open_logfile. rewrite H. reflexivity. Qed.

  Lemma print_attached : forall g w h s, l_logfile g = Some h -> print s None (g, w) = (g, write h s w).
  Proof. intros g w h s H. unfold print. rewrite H. reflexivity. Qed.

  Lemma set_counters_logfile : forall o s g, l_logfile (set_counters o s g) = l_logfile g.
  Proof. reflexivity. Qed.

  Lemma status_attached : forall g w h c i p, l_logfile g = Some h -> well_formed c ->
    out_ok (l_outevery g) (l_outcounter g) i -> sep_ok (l_sepevery g) (l_sepcounter g) p ->
    exists g', status fmt c (g, w)
      = ((g', writes h (if due (l_outevery g) i c
                        then (if header_due (l_sepevery g) p then [header_line (c_hdr c) (c_vals c)] else [])
                             ++ [data_line (c_vals c)] else []) w), Ret tt)
      /\ same_setup g g' /\ out_ok (l_outevery g) (l_outcounter g') (S i)
      /\ sep_ok (l_sepevery g) (l_sepcounter g') (if due (l_outevery g) i c then S p else p).
  Proof.
    intros g w h c i p H [L NE] O S. unfold status. rewrite L, Nat.eqb_refl. cbn [negb].
    rewrite (open_attached g w h H). destruct (out_step _ _ _ c O) as (oc & -> & O').
    destruct (due (l_outevery g) i c).
    - destruct (sep_step _ _ _ S) as [HD S']. cbv zeta.
      assert (NV : forall (A : Type) (x y : A), match c_vals c with [] => x | _ => y end = y).
      { intros. destruct (c_vals c); [contradiction|reflexivity]. }
      rewrite NV. rewrite HD in *. destruct (header_due (l_sepevery g) p).
      + rewrite (print_attached (set_counters oc (l_sepcounter g - 1) g) w h _ H).
        cbv beta iota zeta.
        rewrite (print_attached (set_counters oc _ (set_counters oc _ g)) _ h _ H).
        eexists. split; [reflexivity|]. split; [repeat split; reflexivity|]. split; [exact O'|exact S'].
      + rewrite (print_attached (set_counters oc (l_sepcounter g - 1) g) w h _ H).
        eexists. split; [reflexivity|]. split; [repeat split; reflexivity|]. split; [exact O'|exact S'].
    - eexists. split; [reflexivity|]. split; [repeat split; reflexivity|]. split; [exact O'|exact S].
  Qed.

  Lemma run_attached : forall rs g w h i p, l_logfile g = Some h -> Forall acceptable rs ->
    out_ok (l_outevery g) (l_outcounter g) i -> sep_ok (l_sepevery g) (l_sepcounter g) p ->
    exists g' w', run fmt rs (g, w) = ((g', w'), Ret tt) /\ same_setup g g'
      /\ content h w' = content h w ++ expected (l_outevery g) (l_sepevery g) i p rs
      /\ (h <> Stdout -> w_out w' = w_out w ++ warnings rs)
      /\ (forall k, h <> File k -> w_data w' k = w_data w k)
      /\ w_files w' = w_files w /\ w_next w' = w_next w.
  Proof.
    induction rs as [|r rs IH]; intros g w h i p H A O S.
    { exists g, w. cbn [run expected warnings]. rewrite !app_nil_r.
      repeat split; try reflexivity. }
    inversion A as [|? ? A1 A2]; subst. destruct r as [c|caller s|caller s]; cbn [run do_request].
    - destruct (status_attached g w h c i p H A1 O S) as (g1 & E & SS & O1 & S1). rewrite E.
      set (w1 := writes h _ w) in *.
      assert (H1 : l_logfile g1 = Some h) by (destruct SS as (_ & _ & _ & _ & -> & _); exact H).
      assert (OE : l_outevery g1 = l_outevery g) by apply SS.
      assert (SE : l_sepevery g1 = l_sepevery g) by apply SS.
      destruct (IH g1 w1 h (Datatypes.S i) (if due (l_outevery g) i c then Datatypes.S p else p) H1 A2)
        as (g' & w' & R1 & R2 & R3 & R4 & R5 & R6 & R7).
      { rewrite OE. exact O1. } { rewrite SE. exact S1. }
      exists g', w'. split; [exact R1|]. split; [eapply same_setup_trans; eassumption|].
      split. { rewrite R3, OE, SE. unfold w1. rewrite content_writes_same, <- app_assoc. f_equal.
        cbn [expected]. destruct (due (l_outevery g) i c); [rewrite <- app_assoc; reflexivity|reflexivity]. }
      split. { intro N. rewrite (R4 N). cbn [warnings]. f_equal.
        exact (content_writes_other h Stdout _ w N). }
      split. { intros k N. rewrite (R5 k N). exact (content_writes_other h (File k) _ w N). }
      assert (FW : forall l w, w_files (writes h l w) = w_files w /\ w_next (writes h l w) = w_next w).
      { induction l as [|x l IHl]; intro w0; [split; reflexivity|].
        change (w_files (writes h l (write h x w0)) = w_files w0
          /\ w_next (writes h l (write h x w0)) = w_next w0).
        destruct (IHl (write h x w0)) as [-> ->]. apply write_files. }
      rewrite R6, R7. apply FW.
    - unfold pr. rewrite (open_attached g w h H), (print_attached g w h _ H).
      destruct (IH g (write h (pr_line caller s) w) h i p H A2 O S)
        as (g' & w' & R1 & R2 & R3 & R4 & R5 & R6 & R7).
      exists g', w'. split; [exact R1|]. split; [exact R2|].
      split. { rewrite R3, content_write_same, <- app_assoc. reflexivity. }
      split. { intro N. rewrite (R4 N). cbn [warnings]. f_equal.
        exact (content_write_other h Stdout _ w N). }
      split. { intros k N. rewrite (R5 k N). exact (content_write_other h (File k) _ w N). }
      rewrite R6, R7. apply write_files.
    - unfold warn. rewrite (open_attached g w h H). unfold print at 1. rewrite H.
      set (line := pr_line caller (tx "Warning: " ++ s)).
      set (w1 := write h line (if handle_eqb h Stdout then w else write Stdout line w)).
      destruct (IH g w1 h i p H A2 O S)
        as (g' & w' & R1 & R2 & R3 & R4 & R5 & R6 & R7).
      exists g', w'. split; [exact R1|]. split; [exact R2|].
      split. { rewrite R3. unfold w1. rewrite content_write_same.
        replace (content h (if handle_eqb h Stdout then w else write Stdout line w)) with (content h w).
        - cbn [expected]. fold line. rewrite <- app_assoc. reflexivity.
        - destruct (handle_eqb h Stdout) eqn:E; [reflexivity|]. symmetry.
          apply content_write_other. intros <-. discriminate. }
      split. { intro N. rewrite (R4 N). cbn [warnings]. fold line.
        change (line :: warnings rs) with ([line] ++ warnings rs). rewrite app_assoc. f_equal.
        unfold w1. change (content Stdout (write h line (if handle_eqb h Stdout then w else write Stdout line w))
          = w_out w ++ [line]).
        rewrite (content_write_other h Stdout) by exact N.
        destruct (handle_eqb h Stdout) eqn:E; [apply handle_eqb_spec in E; contradiction|].
        exact (content_write_same Stdout line w). }
      split. { intros k N. rewrite (R5 k N). unfold w1.
        change (content (File k) (write h line (if handle_eqb h Stdout then w else write Stdout line w))
          = content (File k) w).
        rewrite (content_write_other h (File k)) by exact N.
        destruct (handle_eqb h Stdout); [reflexivity|]. apply content_write_other. discriminate. }
      rewrite R6, R7. unfold w1. destruct (write_files h line (if handle_eqb h Stdout then w else write Stdout line w)) as [-> ->].
      destruct (handle_eqb h Stdout); [split; reflexivity|]. apply write_files.
  Qed.

  Lemma fresh_out : forall g, reset_counters g -> out_ok (l_outevery g) (l_outcounter g) 0.
  Proof.
    intros g [E _]. rewrite E. unfold out_ok. assert (l_outevery g = 1 \/ l_outevery g <= 0 \/ 2 <= l_outevery g) by lia.
    destruct H as [H|[H|H]]; [left; exact H|right; left; auto|right; right; split; [exact H|]].
    rewrite Zmod_0_l. lia.
  Qed.
  Lemma fresh_sep : forall g, reset_counters g -> sep_ok (l_sepevery g) (l_sepcounter g) 0.
  Proof. intros g [_ E]. left. split; [reflexivity|exact E]. Qed.
End Runs.
