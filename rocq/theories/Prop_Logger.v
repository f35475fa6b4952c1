(** * Properties of Tools/Logger.py (C54, C55, C56) *)
From Coq Require Import Reals ZArith Lia Lra List Arith Bool Ascii String.
From Verif Require Import Py Logger_Model Logger_Spec Logger_Proofs Logger_Files Logger_Read.
Import ListNotations.
Local Open Scope string_scope.
Local Open Scope list_scope.
Local Open Scope Z_scope.

(** Example data. *)
Definition fmt0 : text -> Z -> text := fun n i => n ++ str_int i.
Definition w0 : world := mkWorld [] (fun _ => []) 0 [].
Definition row (z : Z) : call := mkCall [tx "it"] [Scal (SInt z)] false.
Definition forced (z : Z) : call := mkCall [tx "it"] [Scal (SInt z)] true.

(** ** C54 output frequency *)

(** For every logger that writes to a stream and whose counters are fresh, and
    for all sequences of requests: the stream receives exactly the [expected]
    lines, the screen additionally the warnings, no other file changes, and
    nothing remains in the buffer that was not there. *)
Theorem C54_frequency : forall fmt rs g w h,
  l_logfile g = Some h -> reset_counters g -> Forall acceptable rs ->
  exists g' w', run fmt rs (g, w) = ((g', w'), Ret tt)
    /\ content h w' = content h w ++ expected (l_outevery g) (l_sepevery g) 0 0 rs
    /\ (h <> Stdout -> w_out w' = w_out w ++ warnings rs)
    /\ (forall k, h <> File k -> w_data w' k = w_data w k)
    /\ w_files w' = w_files w /\ l_buffer g' = l_buffer g.
Proof.
  intros fmt rs g w h H R A.
  destruct (run_attached fmt rs g w h 0 0 H A (fresh_out g R) (fresh_sep g R))
    as (g' & w' & E & S & C & O & K & F & _).
  exists g', w'. repeat (split; [assumption|]). apply S.
Qed.
Print Assumptions C54_frequency.

(** Forced or not, it is the number of the call that counts: without forcing,
    exactly the calls number n, 2n, 3n, ... are printed, each group of [sep]
    under one header. *)
Theorem C54_every_nth : forall n calls c k, 1 <= n -> (forall x, In x calls -> c_force x = false) ->
  nth_error calls k = Some c ->
  ((exists q, Z.of_nat (S k) = n * q) <->
   List.length (printed n 0 (map Status (firstn (S k) calls)))
   = S (List.length (printed n 0 (map Status (firstn k calls))))).
Proof.
  intros n calls c k N F K.
  assert (G : forall l i, printed n i (map Status (l ++ [c]))
    = printed n i (map Status l) ++ (if due n (i + List.length l) c then [c] else [])).
  { induction l as [|x l IH]; intros i; cbn [app map printed List.length].
    - rewrite Nat.add_0_r. reflexivity.
    - rewrite IH. replace (i + S (List.length l))%nat with (S i + List.length l)%nat by lia.
      destruct (due n i x); reflexivity. }
  assert (KL : (k < List.length calls)%nat) by (apply nth_error_Some; congruence).
  assert (FS : firstn (S k) calls = firstn k calls ++ [c]).
  { clear - K. revert calls K. induction k as [|k IH]; intros [|x l] K; try discriminate.
    - injection K as ->. reflexivity.
    - cbn in K. change (firstn (S (S k)) (x :: l)) with (x :: firstn (S k) l). rewrite (IH l K). reflexivity. }
  rewrite FS, G, app_length, firstn_length_le by lia. cbn [Nat.add].
  unfold due. rewrite (F c) by (eapply nth_error_In; exact K). cbn [orb].
  destruct (Z.leb_spec n 1).
  - assert (n = 1) by lia. subst n. cbn [orb List.length]. split; [intros _; lia|]. intros _. exists (Z.of_nat (S k)). lia.
  - cbn [orb]. destruct (Z.eqb_spec (Z.of_nat (S k) mod n) 0) as [E|E].
    + split; [intros _; cbn [List.length]; lia|]. intros _. exists (Z.of_nat (S k) / n).
      pose proof (Z.div_mod (Z.of_nat (S k)) n ltac:(lia)). lia.
    + split; [|cbn [List.length]; lia]. intros [q Q]. exfalso. apply E. rewrite Q, Z.mul_comm. apply Z.mod_mul. lia.
Qed.
Print Assumptions C54_every_nth.

(** Counters are fresh in a new logger, after changing the frequency, after the
    end of an iteration, and whenever a file is opened for a template. *)
Theorem C54_resets : forall fmt t oe se w n g h,
  (forall i, t = Stream (Some i) -> l_logfile (fst (new_logger fmt t oe se w)) = Some i
     /\ reset_counters (fst (new_logger fmt t oe se w)))
  /\ (forall fn, t = Name fn -> l_logfile (fst (new_logger fmt t oe se w)) <> None
     /\ reset_counters (fst (new_logger fmt t oe se w)))
  /\ reset_counters (fst (set_outevery n (g, w))) /\ l_outevery (fst (set_outevery n (g, w))) = n
  /\ reset_counters (fst (iteration_finished (g, w)))
  /\ (forall name, l_logfile g = None -> l_logfn g = Some name ->
      reset_counters (fst (open_logfile fmt (g, w)))
      /\ l_logfile (fst (open_logfile fmt (g, w))) <> None)
  /\ (l_logfile g = Some h -> l_logfile (fst (set_outevery n (g, w))) = Some h
      /\ (l_logfn g = None -> l_logfile (fst (iteration_finished (g, w))) = Some h)).
Proof.
  intros fmt t oe se w n g h. split; [|split; [|split; [|split; [|split; [|split]]]]].
  - intros i ->. split; [reflexivity|split; reflexivity].
  - intros fn ->. unfold new_logger, set_logfile. cbv zeta. cbn [fst snd].
    destruct (is_template fn).
    + unfold open_logfile. cbn [set_fn l_logfile l_logfn l_it]. destruct (open_w _ _) as [i w'].
      cbn [fst snd set_file l_logfile set_counters set_fn l_buffer fold_left]. split; [discriminate|split; reflexivity].
    + destruct (open_w fn w) as [i w']. cbn [fst snd set_file l_logfile l_buffer fold_left].
      split; [discriminate|split; reflexivity].
  - split; reflexivity.
  - reflexivity.
  - split; reflexivity.
  - intros name H1 H2. unfold open_logfile. rewrite H1, H2. destruct (open_w _ _) as [i w'].
    split; [split; reflexivity|discriminate].
  - intros H. split; [exact H|]. intro N. cbn. rewrite N. exact H.
Qed.
Print Assumptions C54_resets.

(** A wrong number of values is refused and leaves no trace. *)
Theorem C54_rejects : forall fmt c st,
  (List.length (c_hdr c) <> List.length (c_vals c) -> status fmt c st = (st, Exc AssertionErr)).
Proof.
  intros fmt c st H. unfold status. destruct (Nat.eqb_spec (List.length (c_hdr c)) (List.length (c_vals c)));
    [contradiction|reflexivity].
Qed.
Print Assumptions C54_rejects.

(** Seven calls, every third printed, the fifth forced, a header before every
    second line. *)
Example C54_nonvacuous :
  let g := mkLogger 2 3 3 0 1 None (Some (File 0)) [] in
  let rs := map Status [row 1; row 2; row 3; row 4; forced 5; row 6; row 7]
            ++ [Message (tx "me") (tx "done")] in
  l_logfile g = Some (File 0) /\ reset_counters g /\ Forall acceptable rs
  /\ w_data (snd (fst (run fmt0 rs (g, w0)))) 0%nat
     = [tx "#    1:it"; tx "        3"; tx "        5"; tx "#    1:it"; tx "        6"; tx "# {me}: done"].
Proof.
  cbv zeta. split; [reflexivity|]. split; [split; reflexivity|]. split.
  - repeat (constructor; [first [split; [reflexivity|discriminate]|exact I]|]). constructor.
  - vm_compute. reflexivity.
Qed.
Example C54_every_nth_nonvacuous :
  map c_vals (printed 3 0 (map Status [row 1; row 2; row 3; row 4; row 5; row 6; row 7]))
  = [[Scal (SInt 3)]; [Scal (SInt 6)]].
Proof. reflexivity. Qed.

(** ** C55 nothing is lost *)

(** Whatever is logged before a file is attached: attaching the file at the end
    gives the same files, screen and logger as attaching it at the beginning. *)
Theorem C55_late_attach : forall fmt os g w t,
  Forall (fun o => forall t, o <> Attach t) os ->
  l_logfile g = None -> l_logfn g = None ->
  (exists i, t = Stream (Some (File i))) \/ (exists fn, t = Name fn /\ is_template fn = false) ->
  session fmt (os ++ [Attach t]) (g, w) = session fmt (Attach t :: os) (g, w).
Proof.
  intros fmt os g w t L F N T.
  assert (L' : Forall late os).
  { eapply Forall_impl; [|exact L]. intros [| | |t'] H; cbn; auto. exact (H t' eq_refl). }
  assert (SAPP : forall a b st, session fmt (a ++ b) st = session fmt b (session fmt a st)).
  { induction a as [|o a IHa]; intros b st; [reflexivity|]. cbn [app session]. apply IHa. }
  rewrite SAPP. cbn [session do_op fst]. destruct T as [[i ->]|(fn & -> & P)].
  - rewrite set_stream. destruct (attach_session fmt i os g w L' (conj F N)) as [E U]. rewrite E.
    destruct (session fmt os (g, w)) as [g' w']. apply set_stream.
  - apply plain_late; auto. split; assumption.
Qed.
Print Assumptions C55_late_attach.

Example C55_late_attach_nonvacuous :
  let g := mkLogger 2 2 2 0 1 None None [] in
  let os := [Request (Message (tx "me") (tx "a")); Request (Status (row 1)); Request (Status (row 2));
             SetEvery 1; Request (Status (row 3)); Finished; Request (Status (row 4))] in
  Forall (fun o => forall t, o <> Attach t) os /\ is_template (tx "log") = false
  /\ let w := snd (session fmt0 (os ++ [Attach (Name (tx "log"))]) (g, w0)) in
     w_files w = [(tx "log", 0%nat)]
     /\ w_data w 0%nat = [tx "# {me}: a"; tx "#    1:it"; tx "        2"; tx "#    1:it"; tx "        3";
                     tx "#    1:it"; tx "        4"].
Proof.
  cbv zeta. split; [repeat (constructor; [discriminate|]); constructor|]. split; [reflexivity|].
  split; vm_compute; reflexivity.
Qed.

(** Attaching a template writes everything buffered to the new file. *)
Theorem C55_template_attach : forall fmt n g w, is_template n = true -> consistent w ->
  l_logfile g = None ->
  exists g' w', set_logfile fmt (Name n) (g, w) = (g', w')
    /\ found w' (fmt n (l_it g)) (w_next w) /\ w_data w' (w_next w) = l_buffer g /\ l_buffer g' = []
    /\ l_logfile g' = Some (File (w_next w))
    /\ (forall fn i, found w fn i -> exists fn', backup_name fn fn' /\ found w' fn' i /\ w_data w' i = w_data w i).
Proof.
  intros fmt n g w T C F. unfold set_logfile. rewrite T. cbv zeta. cbn [fst snd].
  destruct (open_new (fmt n (l_it g)) w C) as (w1 & E & C1 & R & FD & D & N & O & X).
  unfold open_logfile. cbn [set_fn l_logfile l_logfn l_it]. rewrite F, E.
  cbn [fst snd set_file set_counters set_fn l_logfile l_buffer].
  rewrite (prints_attached _ _ _ (File (w_next w))) by reflexivity. cbn [fst snd].
  eexists _, _. split; [reflexivity|].
  assert (WF : forall l w, w_files (writes (File (w_next w1)) l w) = w_files w) by
    (induction l as [|x l IHl]; intro w'; [reflexivity|exact (IHl _)]).
  assert (WF' : forall h l w, w_files (writes h l w) = w_files w).
  { intros h l. induction l as [|x l IHl]; intro w'; [reflexivity|].
    change (w_files (writes h l (write h x w')) = w_files w'). rewrite IHl. apply write_files. }
  split; [unfold found; rewrite WF'; exact FD|].
  split. { change (content (File (w_next w)) (writes (File (w_next w)) (l_buffer g) w1) = l_buffer g).
    rewrite content_writes_same. cbn [content]. rewrite D. reflexivity. }
  split; [reflexivity|]. split; [reflexivity|].
  intros fn i I. destruct (R fn i I) as (fn' & B & F' & D'). exists fn'. split; [exact B|].
  split; [unfold found; rewrite WF'; exact F'|].
  change (content (File i) (writes (File (w_next w)) (l_buffer g) w1) = w_data w i).
  rewrite content_writes_other; [exact D'|]. intro K. injection K as K. apply lookup_in in I. apply C in I. lia.
Qed.
Print Assumptions C55_template_attach.

(** With a template every iteration has its own file with exactly the lines of
    this iteration; files that were there before keep their content, under their
    own or a backup name. *)
Theorem C55_one_file_per_iteration : forall fmt n oe se segs it g w,
  l_logfn g = Some n -> l_logfile g = None -> l_it g = it -> l_outevery g = oe -> l_sepevery g = se ->
  l_buffer g = [] -> Forall (Forall acceptable) segs -> consistent w ->
  exists g' w' (file : nat -> nat),
    session fmt (flat_map (fun rs => map Request rs ++ [Finished]) segs) (g, w) = (g', w')
    /\ l_it g' = it + Z.of_nat (List.length segs)
    /\ (forall k rs, nth_error segs k = Some rs -> rs <> [] ->
         (exists fn, backup_name (fmt n (it + Z.of_nat k)) fn /\ found w' fn (file k))
         /\ w_data w' (file k) = expected oe se 0 0 rs
         /\ (forall fn, ~ found w fn (file k))
         /\ forall k', (k' < k)%nat -> nth_error segs k' <> Some [] -> file k' <> file k)
    /\ (forall fn i, found w fn i -> exists fn', backup_name fn fn' /\ found w' fn' i /\ w_data w' i = w_data w i)
    /\ w_out w' = w_out w ++ flat_map warnings segs.
Proof.
  intros fmt n oe se segs it g w H1 H2 H3 H4 H5 H6 A C.
  destruct (iterations_files fmt n oe se segs it g w A C) as (g' & w' & E & W & C' & R & N & (file & F) & O).
  { repeat split; assumption. }
  exists g', w', file. split; [exact E|]. split; [apply W|]. split; [|split; [exact R|exact O]].
  intros k rs K NE. destruct (F k rs K NE) as (B & L & D & DI). split; [exact B|]. split; [exact D|].
  split; [|exact DI]. intros fn I. apply lookup_in in I. apply C in I. lia.
Qed.
Print Assumptions C55_one_file_per_iteration.

(** A new logger with a template is in the state required above, except that the
    first file is already open; an old file of that name has been renamed. *)
Example C55_one_file_nonvacuous :
  let g := mkLogger 10 1 1 0 1 (Some (tx "log{}")) None [] in
  let w := mkWorld [(tx "log{}2", 0%nat); (tx "log{}2.0.bak", 1%nat)] (fun i => match i with O => [tx "old"] | _ => [tx "older"] end) 2 [] in
  let segs := [[Status (row 1)]; [Message (tx "me") (tx "b"); Status (row 2)]] in
  Forall (Forall acceptable) segs /\ consistent w
  /\ let w' := snd (session fmt0 (flat_map (fun rs => map Request rs ++ [Finished]) segs) (g, w)) in
     map (fun p => (fst p, w_data w' (snd p))) (w_files w')
     = [(tx "log{}2", [tx "# {me}: b"; tx "#    1:it"; tx "        2"]);
        (tx "log{}1", [tx "#    1:it"; tx "        1"]);
        (tx "log{}2.1.bak", [tx "old"]); (tx "log{}2.0.bak", [tx "older"])].
Proof.
  cbv zeta. split; [repeat first [exact I|split; [reflexivity|discriminate]|constructor]|].
  split; [|vm_compute; reflexivity]. split.
  - cbn. repeat constructor; cbn; intuition discriminate.
  - cbn. intros fn i [H|[H|[]]]; injection H; intros; lia.
Qed.

(** Over any session in which no plain file name is attached, every file stays
    reachable under its own or a backup name and its content only grows. *)
Theorem C55_never_overwrites : forall fmt os g w, consistent w ->
  (forall fn, In (Attach (Name fn)) os -> is_template fn = true) ->
  consistent (snd (session fmt os (g, w)))
  /\ forall fn i, found w fn i ->
     exists fn' l, backup_name fn fn' /\ found (snd (session fmt os (g, w))) fn' i
       /\ w_data (snd (session fmt os (g, w))) i = w_data w i ++ l.
Proof.
  intros fmt os g w C H.
  assert (HL : Forall harmless os).
  { apply Forall_forall. intros [| | |[fn|h]] I; cbn; auto. }
  destruct (fine_session fmt os (g, w) HL C) as [C' G]. split; [exact C'|].
  intros fn i F. destruct (G fn i F) as (fn' & B & F' & l & L). exists fn', l. auto.
Qed.
Print Assumptions C55_never_overwrites.

(** The exception: a plain name empties an existing file. *)
Theorem C55_plain_name_refuted :
  exists fn w i, found w fn i /\ w_data w i <> []
    /\ forall fmt g, l_buffer g = [] -> w_data (snd (set_logfile fmt (Name fn) (g, w))) i = [].
Proof.
  exists (tx "log"), (mkWorld [(tx "log", 0%nat)] (fun _ => [tx "old"]) 1 []), 0%nat.
  split; [reflexivity|]. split; [discriminate|]. intros fmt g B. rewrite set_plain by reflexivity.
  unfold attach. cbn [fst snd]. rewrite B. reflexivity.
Qed.
Print Assumptions C55_plain_name_refuted.

(** Attaching None throws away what is buffered. *)
Theorem C55_detach_refuted : forall fmt g w, l_logfile g = None ->
  set_logfile fmt (Stream None) (g, w) = (set_buffer [] (set_file None g), w).
Proof. reflexivity. Qed.
Print Assumptions C55_detach_refuted.

(** A warning issued before the screen is attached is shown twice. *)
Theorem C55_screen_twice_refuted : forall fmt caller s g w,
  l_logfile g = None -> l_logfn g = None -> l_buffer g = [] ->
  let line := tx "# {" ++ caller ++ tx "}: " ++ tx "Warning: " ++ s in
  w_out (snd (session fmt [Request (Warning caller s); Attach (Stream (Some Stdout))] (g, w)))
  = w_out w ++ [line; line].
Proof.
  intros fmt caller s g w F N B. cbv zeta. cbn [session do_op do_request fst].
  unfold warn. rewrite open_unattached by (split; assumption). unfold print. rewrite F, B.
  cbn. rewrite <- app_assoc. reflexivity.
Qed.
Print Assumptions C55_screen_twice_refuted.

(** ** C56 reading a log back *)

(** A log written to a plain file by a new logger is read back with the names of
    the first header, one row for every printed status call, and the logged
    entries: ints and words exactly, reals up to half a unit of the 13th digit.
    The first line must be a header, that is, no message may come before the
    first printed status call. *)
Theorem C56_roundtrip : forall fmt fn oe se w rs1 c rs2,
  is_template fn = false -> Forall acceptable rs1 ->
  expected oe se 0 0 rs1 = [] -> due oe (List.length rs1) c = true ->
  readable c -> Forall readable_request rs2 ->
  let rs := rs1 ++ Status c :: rs2 in
  exists g w' i rows,
    run fmt rs (new_logger fmt (Name fn) oe se w) = ((g, w'), Ret tt)
    /\ found w' fn i
    /\ read_convergence_log (w_data w' i) = Ret (column_names (c_hdr c) (c_vals c), rows)
    /\ Forall2 (fun c r => Forall2 agrees (entries (c_vals c)) r) (printed oe 0 rs) rows.
Proof.
  intros fmt fn oe se w rs1 c rs2 T A1 S D RC R2 rs.
  set (g0 := mkLogger se oe oe 0 1 None None []).
  unfold new_logger. fold g0. rewrite set_plain by exact T.
  set (i := fst (open_w fn w)). set (w1 := snd (open_w fn w)).
  assert (OP : found w1 fn i /\ w_data w1 i = []).
  { unfold w1, i, open_w, found. destruct (lookup fn (w_files w)) as [j|] eqn:L; cbn [fst snd w_files w_data].
    - split; [exact L|]. rewrite Nat.eqb_refl. reflexivity.
    - cbn [lookup]. rewrite text_eqb_refl, Nat.eqb_refl. split; reflexivity. }
  assert (AC : Forall acceptable rs).
  { apply Forall_app. split; [exact A1|]. constructor; [apply RC|]. eapply Forall_impl; [|exact R2].
    intros [c'| |] H; cbn in *; [apply H|exact I|exact I]. }
  destruct (C54_frequency fmt rs (fst (attach i (g0, w1))) (snd (attach i (g0, w1))) (File i))
    as (g' & w' & RUN & CT & _ & _ & FI & _); [reflexivity|split; reflexivity|exact AC|].
  destruct (read_expected oe se rs1 c rs2 S D RC R2) as (rows & RD & RA).
  exists g', w', i, rows. split; [exact RUN|]. split; [unfold found; rewrite FI; apply OP|]. split; [|exact RA].
  cbn [content] in CT. rewrite CT. cbn [attach fst snd g0 l_buffer writes fold_left].
  rewrite (proj2 OP). exact RD.
Qed.
Print Assumptions C56_roundtrip.

Example C56_nonvacuous :
  let c := mkCall [tx "status"; tx "it"; tx "x"] [Scal (SStr (tx "CG")); Scal (SInt (-7)); Vec [SReal 1; SReal (-2)]] false in
  readable c /\ due 1 0 c = true /\ expected 1 10 0 0 [] = [] /\ is_template (tx "log") = false
  /\ Forall readable_request [Message (tx "me") (tx "hello"); Status c]
  /\ column_names (c_hdr c) (c_vals c) = [tx "status"; tx "it"; tx "x(x)"; tx "x(y)"]
  /\ List.length (printed 1 0 [Status c; Message (tx "me") (tx "hello"); Status c]) = 2%nat.
Proof.
  cbv zeta.
  assert (PN : forall s, existsb (fun c => orb (is_space c) (Ascii.eqb c ":"%char)) (tx s) = false ->
    Ascii.eqb (last (tx s) "x"%char) "#"%char = false -> plain_name (tx s)).
  { intros s H L. split.
    - intros c I. destruct (is_space c) eqn:E.
      + exfalso. assert (existsb (fun c => orb (is_space c) (Ascii.eqb c ":"%char)) (tx s) = true).
        { apply existsb_exists. exists c. rewrite E. auto. } congruence.
      + split; [reflexivity|]. intros ->.
        assert (existsb (fun c => orb (is_space c) (Ascii.eqb c ":"%char)) (tx s) = true).
        { apply existsb_exists. exists ":"%char. auto. } congruence.
    - intros s' E. rewrite E, last_last in L. discriminate. }
  assert (R : readable (mkCall [tx "status"; tx "it"; tx "x"]
    [Scal (SStr (tx "CG")); Scal (SInt (-7)); Vec [SReal 1; SReal (-2)]] false)).
  { split; [split; [reflexivity|discriminate]|]. split.
    - repeat (constructor; [apply PN; reflexivity|]). constructor.
    - constructor; [|constructor; [exact I|constructor; [|constructor]]].
      + split; [|split].
        * eexists _, _. split; [reflexivity|]. left. vm_compute. split; discriminate.
        * intros c [<-|[<-|[]]]; repeat split; discriminate.
        * cbn. intuition discriminate.
      + split; [cbn; lia|]. repeat constructor. }
  split; [exact R|]. repeat (split; [reflexivity|]). split.
  - constructor; [|constructor; [exact R|constructor]].
    split; intros c H; cbn in H; repeat (destruct H as [<-|H]; [split; discriminate|]); contradiction.
  - split; reflexivity.
Qed.

(** Why the restrictions are needed. A header with a blank makes the log
    unreadable, one with a colon is cut, ... *)
Theorem C56_blank_refuted :
  let c := mkCall [tx "max residual"] [Scal (SInt 1)] false in
  read_convergence_log (expected 1 10 0 0 [Status c]) = Exc IndexError.
Proof. vm_compute. reflexivity. Qed.
Print Assumptions C56_blank_refuted.
Theorem C56_colon_refuted :
  let c := mkCall [tx "a:b"] [Scal (SInt 1)] false in
  read_convergence_log (expected 1 10 0 0 [Status c]) = Ret ([tx "a"], [[CInt 1]]).
Proof. vm_compute. reflexivity. Qed.
Print Assumptions C56_colon_refuted.
(** ... a message in the first line makes it unreadable, ... *)
Theorem C56_message_first_refuted :
  read_convergence_log (expected 1 10 0 0 [Message (tx "me") (tx "starting"); Status (row 1)]) = Exc IndexError.
Proof. vm_compute. reflexivity. Qed.
Print Assumptions C56_message_first_refuted.
(** ... and so does the 14th component of a vector, whose letter counts as white
    space. *)
Theorem C56_long_vector_refuted :
  let c := mkCall [tx "x"] [Vec (repeat (SInt 1) 14)] false in
  read_convergence_log (expected 1 10 0 0 [Status c]) = Exc IndexError.
Proof. vm_compute. reflexivity. Qed.
Print Assumptions C56_long_vector_refuted.
(** Of a word that pandas takes for a missing value, an infinity or a truth
    value, the text does not come back. *)
Theorem C56_special_refuted : forall s, In s special_words ->
  let c := mkCall [tx "a"] [Scal (SStr s)] false in
  read_convergence_log (expected 1 10 0 0 [Status c]) = Ret ([tx "a"], [[CSpecial s]]).
Proof.
  intros s H. cbn [special_words map] in H. unfold special_words in H. cbn [map] in H.
  repeat (destruct H as [<-|H]; [vm_compute; reflexivity|]). contradiction.
Qed.
Print Assumptions C56_special_refuted.


(** ** C56 columns *)
(** An int has 8 places, everything else 20; neighbouring columns are two blanks
    apart, and the first character of a line is not part of a column. *)
Definition places (v : scalar) : nat := match v with SInt _ => 8%nat | _ => 20%nat end.
Fixpoint column_start (vs : list scalar) (i : nat) : nat :=
  match i, vs with
  | S i', v :: vs' => (places v + 2 + column_start vs' i')%nat
  | _, _ => 1%nat
  end.
(** The places of column [i] hold [t], flush right. *)
Definition in_column (vs : list scalar) (i : nat) (v : scalar) (line t : text) : Prop :=
  exists k, firstn (places v) (skipn (column_start vs i) line) = repeat " "%char k ++ t.

Lemma rjust_length : forall n t, (List.length t <= n)%nat -> List.length (rjust n t) = n.
Proof. intros n t H. unfold rjust. rewrite app_length, repeat_length. lia. Qed.

Lemma join_cons : forall a b l, join (a :: b :: l) = a ++ " "%char :: " "%char :: join (b :: l).
Proof. reflexivity. Qed.
Lemma join_column : forall vs ts i v t c,
  List.length ts = List.length vs ->
  (forall i v t, nth_error vs i = Some v -> nth_error ts i = Some t -> (List.length t <= places v)%nat) ->
  nth_error vs i = Some v -> nth_error ts i = Some t ->
  in_column vs i v (c :: join (map (fun p => rjust (places (fst p)) (snd p)) (combine vs ts))) t.
Proof.
  induction vs as [|v0 vs IH]; intros [|t0 ts] i v t c L F V T; try discriminate;
    try (destruct i; discriminate).
  assert (F0 : (List.length t0 <= places v0)%nat) by (apply (F 0%nat); reflexivity).
  assert (FS : forall i v t, nth_error vs i = Some v -> nth_error ts i = Some t -> (List.length t <= places v)%nat)
    by (intros j a b A B; apply (F (S j)); assumption).
  assert (RJ := rjust_length (places v0) t0 F0).
  cbn [combine map fst snd]. unfold in_column. destruct i as [|i].
  - cbn [nth_error] in V, T. injection V as <-. injection T as <-. cbn [column_start skipn].
    exists (places v0 - List.length t0)%nat.
    assert (E : exists r, join (rjust (places v0) t0 :: map (fun p => rjust (places (fst p)) (snd p)) (combine vs ts))
                = rjust (places v0) t0 ++ r).
    { match goal with |- exists r, join (_ :: ?l) = _ => destruct l as [|u us] end; [exists []; cbn; rewrite app_nil_r; reflexivity|].
      eexists. reflexivity. }
    destruct E as (r & ->). rewrite firstn_app, RJ, Nat.sub_diag. cbn [firstn]. rewrite app_nil_r.
    rewrite firstn_all2 by lia. reflexivity.
  - cbn [nth_error] in V, T.
    destruct vs as [|v1 vs]; [destruct i; discriminate|]. destruct ts as [|t1 ts]; [destruct i; discriminate|].
    injection L as L.
    destruct (IH (t1 :: ts) i v t " "%char) as (k & K); [cbn [List.length]; lia|exact FS|exact V|exact T|].
    exists k. rewrite <- K. f_equal.
    change (column_start (v0 :: v1 :: vs) (S i)) with (places v0 + 2 + column_start (v1 :: vs) i)%nat.
    set (cs := column_start (v1 :: vs) i) in *.
    cbn [combine map fst snd].
    rewrite join_cons.
    replace (places v0 + 2 + cs)%nat with (S (places v0 + S cs)) by lia. cbn [skipn].
    rewrite skipn_app, RJ. replace (places v0 + S cs - places v0)%nat with (S cs) by lia.
    rewrite skipn_all2 by (rewrite RJ; lia). reflexivity.
Qed.

Lemma column_end : forall v vs, column_start (v :: vs) (List.length (v :: vs)) = (places v + 2 + column_start vs (List.length vs))%nat.
Proof. reflexivity. Qed.
Lemma join_length : forall vs ts,
  List.length ts = List.length vs -> vs <> [] ->
  (forall i v t, nth_error vs i = Some v -> nth_error ts i = Some t -> (List.length t <= places v)%nat) ->
  List.length (join (map (fun p => rjust (places (fst p)) (snd p)) (combine vs ts)))
  = (column_start vs (List.length vs) - 3)%nat.
Proof.
  induction vs as [|v0 vs IH]; intros [|t0 ts] L N F; try discriminate; [contradiction|].
  assert (F0 : (List.length t0 <= places v0)%nat) by (apply (F 0%nat); reflexivity).
  assert (FS : forall i v t, nth_error vs i = Some v -> nth_error ts i = Some t -> (List.length t <= places v)%nat)
    by (intros j a b A B; apply (F (S j)); assumption).
  assert (RJ := rjust_length (places v0) t0 F0). injection L as L.
  rewrite column_end. cbn [combine map fst snd].
  destruct vs as [|v1 vs].
  - destruct ts; [|discriminate]. cbn [combine map join column_start List.length]. rewrite RJ. lia.
  - destruct ts as [|t1 ts]; [discriminate|].
    specialize (IH (t1 :: ts) L ltac:(discriminate) FS).
    cbn [combine map fst snd] in IH |- *.
    rewrite join_cons.
    rewrite app_length, RJ. cbn [List.length] in IH |- *. rewrite IH.
    change (column_start (v1 :: vs) (S (List.length vs))) with (places v1 + 2 + column_start vs (List.length vs))%nat.
    assert (1 <= column_start vs (List.length vs))%nat by (destruct vs; cbn; lia).
    destruct v1; cbn [places]; lia.
Qed.

Lemma data_line_eq : forall vals,
  data_line vals = " "%char :: join (map (fun p => rjust (places (fst p)) (snd p))
                                       (combine (entries vals) (map show (entries vals)))).
Proof.
  intros vals. unfold data_line. f_equal. f_equal.
  change (flatten vals) with (entries vals).
  induction (entries vals) as [|v l IH]; [reflexivity|]. cbn [map combine fst snd]. rewrite <- IH.
  destruct v; reflexivity.
Qed.

Lemma numbered_nth : forall l k i t, nth_error l i = Some t ->
  nth_error (numbered k l) i = Some (str_int (k + Z.of_nat i) ++ [":"%char] ++ t).
Proof.
  induction l as [|a l IH]; intros k i t H; [destruct i; discriminate|]. destruct i as [|i]; cbn [nth_error numbered] in *.
  - injection H as <-. replace (k + Z.of_nat 0) with k by lia. reflexivity.
  - rewrite (IH (k + 1) i t H). do 2 f_equal. f_equal. lia.
Qed.
Lemma header_line_eq : forall hdr vals, List.length hdr = List.length vals ->
  header_line hdr vals = "#"%char :: join (map (fun p => rjust (places (fst p)) (snd p))
                                       (combine (entries vals) (numbered 1 (column_names hdr vals)))).
Proof.
  intros hdr vals L. unfold header_line. cbv zeta. rewrite hdr_names. reflexivity.
Qed.

(** If all entries and titles fit, every entry is in its column below its
    title - the number of the column, a colon and the name - and header and
    data lines have the same length. *)
Theorem C56_columns : forall hdr vals, List.length hdr = List.length vals -> entries vals <> [] ->
  let title i name := str_int (Z.of_nat (S i)) ++ [":"%char] ++ name in
  (forall i v name, nth_error (entries vals) i = Some v -> nth_error (column_names hdr vals) i = Some name ->
     (List.length (show v) <= places v)%nat /\ (List.length (title i name) <= places v)%nat) ->
  (forall i v name, nth_error (entries vals) i = Some v -> nth_error (column_names hdr vals) i = Some name ->
     in_column (entries vals) i v (data_line vals) (show v)
     /\ in_column (entries vals) i v (header_line hdr vals) (title i name))
  /\ List.length (data_line vals) = List.length (header_line hdr vals).
Proof.
  intros hdr vals L N title F. set (vs := entries vals) in *.
  assert (LN : List.length (column_names hdr vals) = List.length vs) by (apply names_length; exact L).
  assert (SH : forall i v t, nth_error vs i = Some v -> nth_error (map show vs) i = Some t -> (List.length t <= places v)%nat).
  { intros i v t V T. rewrite nth_error_map, V in T. injection T as <-.
    destruct (nth_error (column_names hdr vals) i) as [name|] eqn:E.
    - exact (proj1 (F i v name V E)).
    - exfalso. apply nth_error_None in E. assert (nth_error vs i <> None) as V' by congruence. apply nth_error_Some in V'. lia. }
  assert (TI : forall i v t, nth_error vs i = Some v -> nth_error (numbered 1 (column_names hdr vals)) i = Some t ->
     (List.length t <= places v)%nat).
  { intros i v t V T. destruct (nth_error (column_names hdr vals) i) as [name|] eqn:E.
    - rewrite (numbered_nth _ 1 i name E) in T.
      replace (1 + Z.of_nat i) with (Z.of_nat (S i)) in T by lia.
      assert (T' : t = title i name) by (unfold title; congruence). rewrite T'. exact (proj2 (F i v name V E)).
    - exfalso. apply nth_error_None in E. assert (nth_error vs i <> None) as V' by congruence. apply nth_error_Some in V'. lia. }
  rewrite data_line_eq, header_line_eq by exact L. fold vs. split.
  - intros i v name V NM. split.
    + apply join_column; [apply map_length|exact SH|exact V|]. rewrite nth_error_map, V. reflexivity.
    + apply join_column; [rewrite numbered_length; exact LN|exact TI|exact V|].
      etransitivity; [exact (numbered_nth _ 1 i name NM)|]. unfold title.
      replace (1 + Z.of_nat i) with (Z.of_nat (S i)) by lia. reflexivity.
  - cbn [List.length]. f_equal. rewrite !join_length; try assumption; try reflexivity.
    + rewrite numbered_length. exact LN.
    + apply map_length.
Qed.
Print Assumptions C56_columns.

(** Ints between -10^7 and 10^8 and reals of fewer than 1000 decimals fit. *)
Lemma ndigits_le : forall f n k, 0 <= n < 10 ^ Z.of_nat (S k) -> (ndigits f n <= S k)%nat.
Proof.
  induction f as [|f IH]; intros n k H; cbn [ndigits]; [lia|].
  destruct (Z.ltb_spec n 10); [lia|]. destruct k as [|k]; [cbn in H; lia|].
  apply le_n_S. apply IH. split; [apply Z.div_pos; lia|]. apply Z.div_lt_upper_bound; [lia|].
  replace (10 * 10 ^ Z.of_nat (S k)) with (10 ^ Z.of_nat (S (S k))); [lia|].
  rewrite (Nat2Z.inj_succ (S k)), Z.pow_succ_r by lia. reflexivity.
Qed.
Theorem C56_fits :
  (forall z, - 10 ^ 7 < z < 10 ^ 8 -> (List.length (show (SInt z)) <= places (SInt z))%nat)
  /\ (forall x, x = 0%R \/ (/ 10 ^ 998 <= Rabs x < 10 ^ 999)%R -> (List.length (show (SReal x)) <= places (SReal x))%nat).
Proof.
  split.
  - intros z H. cbn [show places]. unfold str_int. destruct (Z.ltb_spec z 0).
    + cbn [List.length]. rewrite fixed_length. apply le_n_S. apply ndigits_le. cbn. lia.
    + rewrite fixed_length. apply ndigits_le. cbn. lia.
  - intros x H. cbn [show places]. unfold str_real.
    assert (E : exists m e, (if Req_EM_T x 0 then (0, 0) else sci x) = (m, e) /\ Z.abs e < 1000).
    { destruct (Req_EM_T x 0) as [X|X]; [exists 0, 0; split; [reflexivity|lia]|].
      destruct H as [H|H]; [contradiction|]. destruct (sci x) as [m e] eqn:S. exists m, e. split; [reflexivity|].
      destruct (sci_spec x m e X S) as [M B].
      set (a := Rabs x) in *.
      assert (A : (0 < a)%R) by (apply Rabs_pos_lt; exact X).
      assert (SM : (5 * / 10 ^ 13 * a <= / 2 * a)%R).
      { apply Rmult_le_compat_r; lra. }
      assert (B' : (/ 2 * a <= IZR m * powerRZ 10 (e - 12) <= 3 / 2 * a)%R) by (clear - B SM; split_Rabs; lra).
      pose proof (pow10 (e - 12)) as P.
      assert (M1 : (powerRZ 10 12 <= IZR m)%R).
      { replace (powerRZ 10 12) with (IZR (10 ^ 12)) by (unfold powerRZ; change (Pos.to_nat 12) with 12%nat; rewrite pow_IZR; reflexivity). apply IZR_le. lia. }
      assert (M2 : (IZR m < powerRZ 10 13)%R).
      { replace (powerRZ 10 13) with (IZR (10 ^ 13)) by (unfold powerRZ; change (Pos.to_nat 13) with 13%nat; rewrite pow_IZR; reflexivity). apply IZR_lt. lia. }
      assert (U : (powerRZ 10 e <= 3 / 2 * a)%R).
      { apply Rle_trans with (IZR m * powerRZ 10 (e - 12))%R; [|apply B'].
        replace (powerRZ 10 e) with (powerRZ 10 12 * powerRZ 10 (e - 12))%R
          by (rewrite <- powerRZ_add by lra; f_equal; lia).
        apply Rmult_le_compat_r; lra. }
      assert (D : (/ 2 * a < powerRZ 10 (e + 1))%R).
      { apply Rle_lt_trans with (IZR m * powerRZ 10 (e - 12))%R; [apply B'|].
        replace (powerRZ 10 (e + 1)) with (powerRZ 10 13 * powerRZ 10 (e - 12))%R
          by (rewrite <- powerRZ_add by lra; f_equal; lia).
        apply Rmult_lt_compat_r; lra. }
      assert (MONO : forall p q : Z, (powerRZ 10 p < powerRZ 10 q)%R -> p < q).
      { intros p q L. destruct (Z.lt_ge_cases p q) as [|G]; [assumption|]. exfalso.
        assert (1 <= powerRZ 10 (p - q))%R.
        { replace (p - q) with (Z.of_nat (Z.to_nat (p - q))) by lia. rewrite <- pow_powerRZ. apply pow_R1_Rle. lra. }
        assert (powerRZ 10 p = powerRZ 10 (p - q) * powerRZ 10 q)%R
          by (rewrite <- powerRZ_add by lra; f_equal; lia).
        pose proof (pow10 q). assert (1 * powerRZ 10 q <= powerRZ 10 (p - q) * powerRZ 10 q)%R
          by (apply Rmult_le_compat_r; lra). lra. }
      assert (E1 : e < 1000).
      { apply MONO. apply Rle_lt_trans with (3 / 2 * a)%R; [exact U|].
        assert (AB := proj2 H). fold a in AB. replace (powerRZ 10 1000) with (10 * 10 ^ 999)%R by (rewrite (pow_powerRZ 10 999); rewrite <- (powerRZ_1 10) at 1; rewrite <- powerRZ_add by lra; f_equal; lia).
        pose proof (pow_lt 10 999 ltac:(lra)) as PP. revert AB PP. generalize (10 ^ 999)%R. clear - A. intros; lra. }
      assert (E2 : -1000 < e).
      { apply Z.lt_le_trans with (-999); [lia|]. apply Z.lt_succ_r. unfold Z.succ. apply MONO.
        apply Rlt_le_trans with (/ 2 * a)%R; [|left; exact D].
        replace (powerRZ 10 (-999)) with (/ 10 * / 10 ^ 998)%R.
        - assert (AB := proj1 H). fold a in AB. revert AB. generalize (/ 10 ^ 998)%R. clear - A. intros; lra.
        - assert (Q : (powerRZ 10 (-999) * powerRZ 10 999 = 1)%R) by (rewrite <- powerRZ_add by lra; reflexivity).
          replace (powerRZ 10 999) with (10 * 10 ^ 998)%R in Q.
          2:{ rewrite (pow_powerRZ 10 998). rewrite <- (powerRZ_1 10) at 1. rewrite <- powerRZ_add by lra. f_equal; lia. }
          pose proof (pow_lt 10 998 ltac:(lra)) as PP. revert Q PP. generalize (powerRZ 10 (-999)) (10 ^ 998)%R. clear.
          intros u p Q PP. apply (Rmult_eq_reg_r (10 * p)); [|lra]. rewrite Q. field. lra. }
      lia. }
    destruct E as (m & e & -> & E).
    rewrite !app_length, !fixed_length. cbn [List.length].
    assert (D : (digits (Z.abs e) <= 3)%nat) by (apply ndigits_le; cbn; lia).
    destruct (Rlt_dec x 0); cbn [List.length]; lia.
Qed.
Print Assumptions C56_fits.

Example C56_columns_nonvacuous :
  let vals := [Scal (SInt (-7)); Scal (SStr (tx "CG")); Vec [SInt 1; SInt 2]] in
  let hdr := [tx "it"; tx "status"; tx "x"] in
  header_line hdr vals = tx "#    1:it              2:status    3:x(x)    4:x(y)"
  /\ data_line vals = tx "       -7                    CG         1         2"
  /\ forall i v name, nth_error (entries vals) i = Some v -> nth_error (column_names hdr vals) i = Some name ->
     (List.length (show v) <= places v)%nat
     /\ (List.length (str_int (Z.of_nat (S i)) ++ [":"%char] ++ name) <= places v)%nat.
Proof.
  cbv zeta. split; [vm_compute; reflexivity|]. split; [vm_compute; reflexivity|].
  intros i v name V T. cbn in V, T.
  do 4 (destruct i as [|i]; [injection V as <-; injection T as <-; split; apply Nat.leb_le; vm_compute; reflexivity|]).
  destruct i; discriminate.
Qed.
