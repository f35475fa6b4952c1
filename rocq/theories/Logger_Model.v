(** * Model of /repo/ContactMechanics/Tools/Logger.py

    Text is a list of characters with codes below 256.

    Simplifications:
    - logged values are ints, reals, strings, and non-empty vectors of these
      (nested vectors, empty vectors, nan and infinities are left out);
    - the file system is a finite map from names to files; two open handles of
      one file append in the order of the calls; opening, renaming and writing
      do not fail;
    - the class attribute [__all_output_to_stdout] keeps its value False;
    - [str.format] of the file name template is an arbitrary function [fmt];
    - of [pandas.read_csv] only the following is modelled: comments are cut,
      blank lines skipped, the rest is split at blanks, and every field is
      converted on its own ([cell]); the only formats of numbers are those
      written by the logger. *)
From Coq Require Import Reals ZArith Lia List Arith Bool Ascii String.
From Verif Require Import Py.
Import ListNotations.
Local Open Scope Z_scope.

Definition text := list ascii.
Definition tx (s : string) : text := list_ascii_of_string s.
Definition text_eqb (a b : text) : bool := if list_eq_dec ascii_dec a b then true else false.
Definition code (c : ascii) : Z := Z.of_nat (nat_of_ascii c).
Definition chr (n : Z) : ascii := ascii_of_nat (Z.to_nat n).

(** ** Numbers as text *)

(** The [k] last decimal digits of [n]. *)
Fixpoint fixed (k : nat) (n : Z) : text :=
  match k with
  | O => []
  | S k' => fixed k' (n / 10) ++ [chr (48 + n mod 10)]
  end.

(** Number of decimal digits; [fuel] bounds the search. *)
Fixpoint ndigits (fuel : nat) (n : Z) : nat :=
  match fuel with
  | O => 1%nat
  | S f => if n <? 10 then 1%nat else S (ndigits f (n / 10))
  end.
Definition digits (n : Z) : nat := ndigits (S (Z.to_nat (Z.log2 n))) n.

(** [str(z)] *)
Definition str_int (z : Z) : text :=
  if z <? 0 then "-"%char :: fixed (digits (- z)) (- z) else fixed (digits z) z.

(** Nearest integer, ties to even. *)
Definition round_even (x : R) : Z :=
  let n := Int_part x in
  let f := frac_part x in
  if Rlt_dec f (1/2) then n
  else if Rlt_dec (1/2) f then n + 1
  else if Z.even n then n else n + 1.

(** Decimal exponent and the 13-digit mantissa, [|x| ~ m * 10^(e - 12)]. *)
Definition sci (x : R) : Z * Z :=
  let a := Rabs x in
  let e := Int_part (ln a / ln 10) in
  let m := round_even (a * powerRZ 10 (12 - e)) in
  if m =? 10 ^ 13 then (10 ^ 12, e + 1) else (m, e).

(** [format(x, '.12e')] *)
Definition str_real (x : R) : text :=
  let '(m, e) := if Req_EM_T x 0 then (0, 0) else sci x in
  (if Rlt_dec x 0 then ["-"%char] else [])
  ++ fixed 1 (m / 10 ^ 12) ++ ["."%char] ++ fixed 12 m
  ++ ["e"%char; if e <? 0 then "-"%char else "+"%char]
  ++ fixed (Nat.max 2 (digits (Z.abs e))) (Z.abs e).

(** [format(s, '>w')] *)
Definition rjust (w : nat) (t : text) : text := repeat " "%char (w - List.length t) ++ t.

(** ** Values *)
Inductive scalar := SInt (z : Z) | SReal (x : R) | SStr (s : text).
Inductive value := Scal (s : scalar) | Vec (l : list scalar).

(** [flatten(vals)], lines 91-99. *)
Definition flat_value (v : value) : list scalar := match v with Scal s => [s] | Vec l => l end.
Definition flatten (vals : list value) : list scalar := flat_map flat_value vals.

(** [hdr_str], lines 39-52. *)
Fixpoint components (s : text) (i : Z) (l : list scalar) : list text :=
  match l with
  | [] => []
  | _ :: l' => (s ++ ["("%char; chr (120 + i); ")"%char]) :: components s (i + 1) l'
  end.
Definition hdr_str (s : text) (v : value) : list text :=
  match v with Scal _ => [s] | Vec l => components s 0 l end.

(** Width of the column, [hdrfmt_str] and [numfmt_str], lines 55-87. *)
Definition width (v : scalar) : nat := match v with SInt _ => 8%nat | _ => 20%nat end.
Definition show (v : scalar) : text :=
  match v with SInt z => str_int z | SReal x => str_real x | SStr s => s end.

(** [reduce(lambda a, b: '{0}  {1}'.format(a, b), ...)] *)
Fixpoint join (l : list text) : text :=
  match l with
  | [] => []
  | [a] => a
  | a :: l' => a ++ [" "%char; " "%char] ++ join l'
  end.

(** Lines 190-198. *)
Fixpoint numbered (i : Z) (l : list text) : list text :=
  match l with [] => [] | s :: l' => (str_int i ++ [":"%char] ++ s) :: numbered (i + 1) l' end.
Definition header_line (hdr : list text) (vals : list value) : text :=
  let names := flat_map (fun p => hdr_str (fst p) (snd p)) (combine hdr vals) in
  "#"%char :: join (map (fun p => rjust (width (fst p)) (snd p))
                     (combine (flatten vals) (numbered 1 names))).
(** Lines 201-206. *)
Definition data_line (vals : list value) : text :=
  " "%char :: join (map (fun v => rjust (width v) (show v)) (flatten vals)).

(** ** Files *)
Inductive handle := Stdout | File (i : nat).
Definition handle_eqb (a b : handle) : bool :=
  match a, b with
  | Stdout, Stdout => true
  | File i, File j => Nat.eqb i j
  | _, _ => false
  end.

(** [w_files]: names; [w_data]: lines of a file; [w_next]: files with this or
    a larger number do not exist yet; [w_out]: what has been printed on the
    screen. *)
Record world := mkWorld {
  w_files : list (text * nat);
  w_data : nat -> list text;
  w_next : nat;
  w_out : list text }.

Fixpoint lookup (fn : text) (l : list (text * nat)) : option nat :=
  match l with
  | [] => None
  | (k, i) :: l' => if text_eqb fn k then Some i else lookup fn l'
  end.
Definition file_exists (w : world) (fn : text) : bool :=
  match lookup fn (w_files w) with Some _ => true | None => false end.

Definition write (h : handle) (s : text) (w : world) : world :=
  match h with
  | Stdout => mkWorld (w_files w) (w_data w) (w_next w) (w_out w ++ [s])
  | File i => mkWorld (w_files w) (fun j => if Nat.eqb j i then w_data w i ++ [s] else w_data w j)
                (w_next w) (w_out w)
  end.

(** [open(fn, 'w')] *)
Definition open_w (fn : text) (w : world) : nat * world :=
  match lookup fn (w_files w) with
  | Some i => (i, mkWorld (w_files w) (fun j => if Nat.eqb j i then [] else w_data w j)
                    (w_next w) (w_out w))
  | None => (w_next w, mkWorld ((fn, w_next w) :: w_files w)
                         (fun j => if Nat.eqb j (w_next w) then [] else w_data w j)
                         (S (w_next w)) (w_out w))
  end.

(** [os.rename(a, b)] for a name [b] that is not in use. *)
Definition rename (a b : text) (w : world) : world :=
  mkWorld (map (fun p => if text_eqb (fst p) a then (b, snd p) else p) (w_files w))
    (w_data w) (w_next w) (w_out w).

(** Lines 125-130: ['{0}.{1}.bak'] with the first unused number. *)
Definition bak (fn : text) (i : Z) : text := fn ++ ["."%char] ++ str_int i ++ tx ".bak".
Fixpoint first_free (w : world) (fn : text) (fuel : nat) (i : Z) : Z :=
  match fuel with
  | O => i
  | S f => if file_exists w (bak fn i) then first_free w fn f (i + 1) else i
  end.
Definition backup (fn : text) (w : world) : world :=
  if file_exists w fn
  then rename fn (bak fn (first_free w fn (S (List.length (w_files w))) 0)) w
  else w.

(** ** The logger *)
Record logger := mkLogger {
  l_sepevery : Z; l_outevery : Z; l_outcounter : Z; l_sepcounter : Z;
  l_it : Z; l_logfn : option text; l_logfile : option handle; l_buffer : list text }.

Definition state := (logger * world)%type.

Definition set_counters o s (g : logger) :=
  mkLogger (l_sepevery g) (l_outevery g) o s (l_it g) (l_logfn g) (l_logfile g) (l_buffer g).
Definition set_file f (g : logger) :=
  mkLogger (l_sepevery g) (l_outevery g) (l_outcounter g) (l_sepcounter g) (l_it g) (l_logfn g) f (l_buffer g).
Definition set_fn n (g : logger) :=
  mkLogger (l_sepevery g) (l_outevery g) (l_outcounter g) (l_sepcounter g) (l_it g) n (l_logfile g) (l_buffer g).
Definition set_buffer b (g : logger) :=
  mkLogger (l_sepevery g) (l_outevery g) (l_outcounter g) (l_sepcounter g) (l_it g) (l_logfn g) (l_logfile g) b.

(** [_print], lines 133-139. *)
Definition print (s : text) (copy : option handle) (st : state) : state :=
  let (g, w) := st in
  let w1 := match copy with
            | Some h => if match l_logfile g with Some h' => handle_eqb h' h | None => false end
                        then w else write h s w
            | None => w
            end in
  match l_logfile g with
  | Some h => (g, write h s w1)
  | None => (set_buffer (l_buffer g ++ [s]) g, w1)
  end.

(** [s.find(p) != -1] *)
Fixpoint is_prefix (p s : text) : bool :=
  match p, s with
  | [], _ => true
  | a :: p', b :: s' => andb (Ascii.eqb a b) (is_prefix p' s')
  | _, _ => false
  end.
Fixpoint contains (p s : text) : bool :=
  orb (is_prefix p s) (match s with [] => false | _ :: s' => contains p s' end).
Definition is_template (s : text) : bool := orb (contains (tx "{0}") s) (contains (tx "{}") s).

(** The argument of [set_logfile]: a name, or a stream or None. *)
Inductive target := Name (fn : text) | Stream (h : option handle).

Section Logger.
  Variable fmt : text -> Z -> text.

  (** [__open_logfile], lines 119-131. *)
  Definition open_logfile (st : state) : state :=
    let (g, w) := st in
    match l_logfile g, l_logfn g with
    | None, Some n =>
        let fn := fmt n (l_it g) in
        let (i, w') := open_w fn (backup fn w) in
        (set_file (Some (File i)) (set_counters (l_outevery g) 0 g), w')
    | _, _ => st
    end.

  (** [set_logfile], lines 145-161. *)
  Definition set_logfile (t : target) (st : state) : state :=
    let st1 :=
      match t with
      | Name fn =>
          if is_template fn then open_logfile (set_fn (Some fn) (fst st), snd st)
          else let (i, w') := open_w fn (snd st) in (set_file (Some (File i)) (fst st), w')
      | Stream h => (set_file h (fst st), snd st)
      end in
    let st2 := match l_logfile (fst st1) with
               | Some _ => fold_left (fun s line => print line None s) (l_buffer (fst st1)) st1
               | None => st1
               end in
    (set_buffer [] (fst st2), snd st2).

  (** [__init__], lines 106-117. *)
  Definition new_logger (t : target) (outevery sepevery : Z) (w : world) : state :=
    set_logfile t (mkLogger sepevery outevery outevery 0 1 None None [], w).

  (** [pr], lines 163-168, and [warn], lines 170-171. *)
  Definition pr_line (caller s : text) : text := tx "# {" ++ caller ++ tx "}: " ++ s.
  Definition pr (caller s : text) (st : state) : state :=
    print (pr_line caller s) None (open_logfile st).
  Definition warn (caller s : text) (st : state) : state :=
    print (pr_line caller (tx "Warning: " ++ s)) (Some Stdout) (open_logfile st).

  (** [st], lines 173-207. *)
  Record call := mkCall { c_hdr : list text; c_vals : list value; c_force : bool }.
  Definition status (c : call) (st : state) : state * res unit :=
    if negb (Nat.eqb (List.length (c_hdr c)) (List.length (c_vals c))) then (st, Exc AssertionErr)
    else
      let (g, w) := open_logfile st in
      let '(do_print, oc) :=
        if l_outevery g =? 1 then (true, l_outcounter g)
        else if l_outcounter g - 1 <=? 0 then (true, l_outevery g)
        else (c_force c, l_outcounter g - 1) in
      if do_print then
        let sc := l_sepcounter g - 1 in
        match c_vals c with
        | [] => ((set_counters oc sc g, w), Exc TypeErr)
        | _ =>
            let st1 :=
              if sc <=? 0
              then let (g', w') := print (header_line (c_hdr c) (c_vals c)) None
                                     (set_counters oc sc g, w) in
                   (set_counters oc (l_sepevery g') g', w')
              else (set_counters oc sc g, w) in
            (print (data_line (c_vals c)) None st1, Ret tt)
        end
      else ((set_counters oc (l_sepcounter g) g, w), Ret tt).

  (** [iteration_finished], lines 209-214. *)
  Definition iteration_finished (st : state) : state :=
    let (g, w) := st in
    (mkLogger (l_sepevery g) (l_outevery g) (l_outevery g) 0 (l_it g + 1) (l_logfn g)
       (match l_logfn g with Some _ => None | None => l_logfile g end) (l_buffer g), w).

  (** [set_outevery], lines 222-226. *)
  Definition set_outevery (n : Z) (st : state) : state :=
    let (g, w) := st in
    (mkLogger (l_sepevery g) n n 0 (l_it g) (l_logfn g) (l_logfile g) (l_buffer g), w).
End Logger.

(** ** [read_convergence_log], lines 233-260 *)

(** Python's [str.isspace] for codes below 256. *)
Definition is_space (c : ascii) : bool :=
  let n := code c in
  orb (orb (andb (9 <=? n) (n <=? 13)) (andb (28 <=? n) (n <=? 32))) (orb (n =? 133) (n =? 160)).

(** [s.split()] with separators given by [sp]. *)
Fixpoint split_at (sp : ascii -> bool) (s : text) (acc : text) : list text :=
  match s with
  | [] => match acc with [] => [] | _ => [acc] end
  | c :: s' => if sp c
               then match acc with [] => split_at sp s' [] | _ => acc :: split_at sp s' [] end
               else split_at sp s' (acc ++ [c])
  end.

(** [s.strip('# \n')] *)
Definition in_strip (c : ascii) : bool :=
  orb (orb (Ascii.eqb c "#"%char) (Ascii.eqb c " "%char)) (code c =? 10).
Fixpoint lstrip (s : text) : text :=
  match s with c :: s' => if in_strip c then lstrip s' else s | [] => [] end.
Definition strip (s : text) : text := rev (lstrip (rev (lstrip s))).

(** [col.split(':')[1].strip()]: the text between the first and the second
    colon. *)
Fixpoint upto (c : ascii) (s : text) : text :=
  match s with [] => [] | d :: s' => if Ascii.eqb d c then [] else d :: upto c s' end.
Fixpoint after (c : ascii) (s : text) : option text :=
  match s with [] => None | d :: s' => if Ascii.eqb d c then Some s' else after c s' end.
Fixpoint lstrip_space (s : text) : text :=
  match s with c :: s' => if is_space c then lstrip_space s' else s | [] => [] end.
Definition strip_space (s : text) : text := rev (lstrip_space (rev (lstrip_space s))).
Definition column_name (col : text) : res text :=
  match after ":"%char col with
  | Some r => Ret (strip_space (upto ":"%char r))
  | None => Exc IndexError
  end.
Fixpoint mapM {A B} (f : A -> res B) (l : list A) : res (list B) :=
  match l with
  | [] => Ret []
  | a :: l' => bind (f a) (fun b => bind (mapM f l') (fun r => Ret (b :: r)))
  end.

(** A field of the table: an int, a float, text, or one of the words that
    pandas turns into a missing value, an infinity or a truth value. *)
Inductive cell := CInt (z : Z) | CFloat (x : R) | CText (s : text) | CSpecial (s : text).
Definition special_words : list text :=
  map tx ["N/A"; "NA"; "NULL"; "NaN"; "None"; "n/a"; "nan"; "null"; "True"; "TRUE"; "true";
          "False"; "FALSE"; "false"; "inf"; "Inf"; "INF"; "infinity"; "Infinity"; "INFINITY"]%string.

Definition is_digit (c : ascii) : bool := andb (48 <=? code c) (code c <=? 57).
Definition nat_value (s : text) : Z := fold_left (fun a c => 10 * a + (code c - 48)) s 0.
Definition unsigned (s : text) : option Z :=
  match s with [] => None | _ => if forallb is_digit s then Some (nat_value s) else None end.
Definition signed (s : text) : option Z :=
  match s with
  | c :: s' => if Ascii.eqb c "-"%char then option_map Z.opp (unsigned s')
               else if Ascii.eqb c "+"%char then unsigned s' else unsigned s
  | [] => None
  end.
(** Digits, a point, digits, [e], signed exponent; [e] and the exponent may be
    missing. *)
Definition unsigned_float (s : text) : option R :=
  let ip := upto "."%char s in
  match after "."%char s with
  | None => None
  | Some r =>
      let fp := upto "e"%char r in
      match unsigned ip, unsigned fp,
            match after "e"%char r with Some x => signed x | None => Some 0 end with
      | Some i, Some f, Some e =>
          Some ((IZR i + IZR f * powerRZ 10 (- Z.of_nat (List.length fp))) * powerRZ 10 e)%R
      | _, _, _ => None
      end
  end.
Definition signed_float (s : text) : option R :=
  match s with
  | c :: s' => if Ascii.eqb c "-"%char then option_map Ropp (unsigned_float s')
               else if Ascii.eqb c "+"%char then unsigned_float s' else unsigned_float s
  | [] => None
  end.
Definition to_cell (s : text) : cell :=
  match signed s with
  | Some z => CInt z
  | None => match signed_float s with
            | Some x => CFloat x
            | None => if existsb (text_eqb s) special_words then CSpecial s else CText s
            end
  end.

Definition blank (c : ascii) : bool := orb (code c =? 32) (code c =? 9).
Definition fields (line : text) : list text := split_at blank (upto "#"%char line) [].

Definition read_convergence_log (lines : list text) : res (list text * list (list cell)) :=
  let header := strip (hd [] lines) in
  bind (mapM column_name (split_at is_space header [])) (fun names =>
  Ret (names, map (map to_cell)
                (filter (fun r => match r with [] => false | _ => true end) (map fields lines)))).
