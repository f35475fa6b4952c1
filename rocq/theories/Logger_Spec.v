(** * Vocabulary of the logger theorems *)
From Coq Require Import Reals ZArith List Arith Bool Ascii String.
From Verif Require Import Py Logger_Model.
Import ListNotations.
Local Open Scope string_scope.
Local Open Scope list_scope.
Local Open Scope Z_scope.

(** What a stream holds. *)
Definition content (h : handle) (w : world) : list text :=
  match h with Stdout => w_out w | File i => w_data w i end.

(** Log requests. *)
Inductive request :=
| Status (c : call)
| Message (caller s : text)
| Warning (caller s : text).

(** One value for every header, and at least one. *)
Definition well_formed (c : call) : Prop :=
  List.length (c_hdr c) = List.length (c_vals c) /\ c_vals c <> [].
Definition acceptable (r : request) : Prop :=
  match r with Status c => well_formed c | _ => True end.

(** The lines that must appear when [i] status calls have been made and [p] of
    them been printed since the last reset: every [n]-th status call and every
    forced one is printed; before the first printed one, and then before every
    [sep]-th, comes a header. *)
Definition due (n : Z) (i : nat) (c : call) : bool :=
  orb (c_force c) (orb (n <=? 1) (Z.of_nat (S i) mod n =? 0)).
Definition header_due (sep : Z) (p : nat) : bool :=
  orb (sep <=? 1) (Z.of_nat p mod sep =? 0).
Fixpoint expected (n sep : Z) (i p : nat) (rs : list request) : list text :=
  match rs with
  | [] => []
  | Status c :: rs' =>
      if due n i c
      then (if header_due sep p then [header_line (c_hdr c) (c_vals c)] else [])
           ++ [data_line (c_vals c)] ++ expected n sep (S i) (S p) rs'
      else expected n sep (S i) p rs'
  | Message caller s :: rs' => pr_line caller s :: expected n sep i p rs'
  | Warning caller s :: rs' => pr_line caller (tx "Warning: " ++ s) :: expected n sep i p rs'
  end.

(** Warnings are also shown on the screen. *)
Fixpoint warnings (rs : list request) : list text :=
  match rs with
  | [] => []
  | Warning caller s :: rs' => pr_line caller (tx "Warning: " ++ s) :: warnings rs'
  | _ :: rs' => warnings rs'
  end.

(** Carrying out requests; an exception stops the run. *)
Section Run.
  Variable fmt : text -> Z -> text.
  Definition do_request (r : request) (st : state) : state * res unit :=
    match r with
    | Status c => status fmt c st
    | Message caller s => (pr fmt caller s st, Ret tt)
    | Warning caller s => (warn fmt caller s st, Ret tt)
    end.
  Fixpoint run (rs : list request) (st : state) : state * res unit :=
    match rs with
    | [] => (st, Ret tt)
    | r :: rs' => match do_request r st with
                  | (st', Ret _) => run rs' st'
                  | (st', Exc e) => (st', Exc e)
                  end
    end.
End Run.

(** The logger counts afresh. *)
Definition reset_counters (g : logger) : Prop :=
  l_outcounter g = l_outevery g /\ l_sepcounter g = 0.

(** ** Sessions *)

(** Everything a user can do to a logger. *)
Inductive op :=
| Request (r : request)
| SetEvery (n : Z)
| Finished
| Attach (t : target).

Section Session.
  Variable fmt : text -> Z -> text.
  Definition do_op (o : op) (st : state) : state * res unit :=
    match o with
    | Request r => do_request fmt r st
    | SetEvery n => (set_outevery n st, Ret tt)
    | Finished => (iteration_finished st, Ret tt)
    | Attach t => (set_logfile fmt t st, Ret tt)
    end.
  (** A session goes on after an exception. *)
  Fixpoint session (os : list op) (st : state) : state :=
    match os with
    | [] => st
    | o :: os' => session os' (fst (do_op o st))
    end.
End Session.

(** [fn'] is [fn], or [fn] with suffixes [.n.bak]. *)
Inductive backup_name (fn : text) : text -> Prop :=
| same_name : backup_name fn fn
| renamed : forall fn' n, backup_name fn fn' ->
    backup_name fn (fn' ++ tx "." ++ str_int n ++ tx ".bak").

(** The file system is consistent: no name occurs twice, and numbers not yet
    given away are not in use. *)
Definition consistent (w : world) : Prop :=
  NoDup (map fst (w_files w)) /\ forall fn i, In (fn, i) (w_files w) -> (i < w_next w)%nat.

(** The file [i] can be found under the name [fn]. *)
Definition found (w : world) (fn : text) (i : nat) : Prop := lookup fn (w_files w) = Some i.

(** ** Reading a log back *)

(** The status calls that are printed. *)
Fixpoint printed (n : Z) (i : nat) (rs : list request) : list call :=
  match rs with
  | [] => []
  | Status c :: rs' => if due n i c then c :: printed n (S i) rs' else printed n (S i) rs'
  | _ :: rs' => printed n i rs'
  end.

(** Column names: a vector has the columns name(x), name(y), name(z), ... *)
Fixpoint column_names (hdr : list text) (vals : list value) : list text :=
  match hdr, vals with
  | h :: hdr', Scal _ :: vals' => h :: column_names hdr' vals'
  | h :: hdr', Vec l :: vals' =>
      map (fun i => h ++ tx "(" ++ [ascii_of_nat (120 + i)] ++ tx ")") (seq 0 (List.length l))
      ++ column_names hdr' vals'
  | _, _ => []
  end.

(** Headers without white space and colon that do not end in [#]. *)
Definition plain_name (s : text) : Prop :=
  (forall c, In c s -> is_space c = false /\ c <> ":"%char)
  /\ forall s', s <> s' ++ ["#"%char].
(** Strings that begin with a letter, have no blanks, [#] or quotes, and are
    not special to pandas. *)
Definition letter (c : ascii) : Prop :=
  65 <= code c <= 90 \/ 97 <= code c <= 122.
Definition plain_word (s : text) : Prop :=
  (exists c s', s = c :: s' /\ letter c)
  /\ (forall c, In c s -> is_space c = false /\ c <> "#"%char /\ code c <> 34)
  /\ ~ In s special_words.
Definition plain_scalar (v : scalar) : Prop :=
  match v with SStr s => plain_word s | _ => True end.
Definition plain_value (v : value) : Prop :=
  match v with
  | Scal s => plain_scalar s
  | Vec l => (1 <= List.length l <= 13)%nat /\ Forall plain_scalar l
  end.
Definition readable (c : call) : Prop :=
  well_formed c /\ Forall plain_name (c_hdr c) /\ Forall plain_value (c_vals c).
Definition one_line (s : text) : Prop := forall c, In c s -> code c <> 10 /\ code c <> 13.
Definition readable_request (r : request) : Prop :=
  match r with
  | Status c => readable c
  | Message caller s | Warning caller s => one_line caller /\ one_line s
  end.

(** What is read agrees with what was logged. *)
Definition agrees (v : scalar) (x : cell) : Prop :=
  match v, x with
  | SInt z, CInt z' => z' = z
  | SReal r, CFloat r' => (Rabs (r' - r) <= 5 * / 10 ^ 13 * Rabs r)%R
  | SStr s, CText s' => s' = s
  | _, _ => False
  end.
Definition entries (vals : list value) : list scalar :=
  flat_map (fun v => match v with Scal s => [s] | Vec l => l end) vals.
