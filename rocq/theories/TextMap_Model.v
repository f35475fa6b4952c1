(** * Model of the text maps of the command line:
    /repo/ContactMechanics/CommandLineInterface/HardWall.py 196-243, with
    [np.savetxt] and [np.loadtxt]

    Text is a list of characters with codes below 256, as in Logger_Model.v.

    Simplifications:
    - two-dimensional arrays; [loadtxt] gives the rows (numpy removes axes of
      length one afterwards);
    - both functions use the same encoding, and the file is not compressed;
    - of [loadtxt] the following is modelled: the file is cut into lines at
      line feeds and carriage returns, everything from a [#] on is dropped, lines
      without fields are skipped, and fields are separated by white space;
    - [float] knows the formats that [savetxt] writes: digits, or digits with
      a point and an exponent, or one of the words [nan], [inf]. *)
From Coq Require Import Reals ZArith List Bool Ascii String.
From Coq Require Import Floats.SpecFloat.
From Verif Require Import Py HalfSpace_Model Systems_Model HardWall_Model Float_Model Float_IEEE Float_Double Logger_Model.
From Coq Require Import List.
Import ListNotations.
Local Open Scope Z_scope.

(** ** [savetxt] *)

(** Decimal exponent and the 19-digit mantissa of [a > 0],
    [a ~ m * 10^(e - 18)]. *)
Definition sci18 (a : R) : Z * Z :=
  let e := Int_part (ln a / ln 10) in
  let m := round_even (a * powerRZ 10 (18 - e)) in
  if m =? 10 ^ 19 then (10 ^ 18, e + 1) else (m, e).

(** ['%.18e' % x] for a number of magnitude [a]. *)
Definition fmt_e (neg : bool) (a : R) : text :=
  let '(m, e) := if Req_EM_T a 0 then (0, 0) else sci18 a in
  (if neg then ["-"%char] else [])
  ++ fixed 1 (m / 10 ^ 18) ++ ["."%char] ++ fixed 18 m
  ++ ["e"%char; if e <? 0 then "-"%char else "+"%char]
  ++ fixed (Nat.max 2 (digits (Z.abs e))) (Z.abs e).

(** A real number, and a double. *)
Definition fmt_real (x : R) : text := fmt_e (if Rlt_dec x 0 then true else false) (Rabs x).
Definition fmt_double (x : D64) : text :=
  match raw x with
  | S754_nan => tx "nan"
  | S754_infinity false => tx "inf"
  | S754_infinity true => tx "-inf"
  | S754_zero s => fmt_e s 0
  | S754_finite s m e => fmt_e s (IZR (Zpos m) * powerRZ 2 e)
  end.
(** ['%i' % b] *)
Definition fmt_bool (b : bool) : text := if b then tx "1" else tx "0".

Definition nl : ascii := chr 10.
Definition cr : ascii := chr 13.

(** [sep.join(l)] *)
Fixpoint joined (sep : text) (l : list text) : text :=
  match l with
  | [] => []
  | [a] => a
  | a :: l' => a ++ sep ++ joined sep l'
  end.

(** [header.replace('\n', '\n# ')] *)
Definition commented (h : text) : text :=
  flat_map (fun c => if Ascii.eqb c nl then nl :: tx "# " else [c]) h.
Definition savetxt (header : text) (rows : list (list text)) : text :=
  tx "# " ++ commented header ++ [nl] ++ flat_map (fun r => joined (tx " ") r ++ [nl]) rows.

(** The rows of an array. *)
Definition array_rows {A} (s : list nat) (f : nat -> nat -> A) : list (list A) :=
  map (fun i => map (f i) (seq 0 (nth 1 s 0%nat))) (seq 0 (nth 0 s 0%nat)).

Section Files.
  Variable versionstr : text.        (* line 51 *)
  Variable commandline : text.       (* line 53 *)
  Variable repr : R -> text.         (* '{}'.format of a float *)

  (** Lines 197-199, 212-214, 224-226. *)
  Definition macrostr (macro : list (string * R)) : text :=
    joined [nl] (map (fun p => tx (fst p) ++ tx " = " ++ repr (snd p)) macro).

  (** Lines 204, 208-211, 220-223.  The model's surfaces have a unit. *)
  Definition title (m : written) : text :=
    match m with
    | WContact _ _ => tx "Contact map follows. Values are boolean."
    | WPressure None _ => tx "Pressure values follow, they are reported in units of E*."
    | WPressure (Some e) _ => tx "This calculation was run with a contact modulus E*=" ++ repr e ++ tx "."
    | WLength u _ => tx "Gap values follow, they are reported in units of " ++ tx u ++ tx "."
    end.

  Definition file_header (m : written) (macro : list (string * R)) : text :=
    versionstr ++ [nl] ++ commandline ++ [nl] ++ macrostr macro ++ title m.

  Definition entries (m : written) : list (list text) :=
    match m with
    | WContact s z => array_rows s (fun i j => fmt_bool (z i j))
    | WPressure _ a => array_rows (a_shape a) (fun i j => fmt_real (a_val a i j))
    | WLength _ a => array_rows (a_shape a) (fun i j => fmt_real (a_val a i j))
    end.

  (** [save_contact], [save_pressure], [save_gap], lines 196-228. *)
  Definition file_text (m : written) (macro : list (string * R)) : text :=
    savetxt (file_header m macro) (entries m).
End Files.

(** ** [loadtxt] *)
Definition is_nl (c : ascii) : bool := orb (code c =? 10) (code c =? 13).
Fixpoint lines_of (s acc : text) : list text :=
  match s with
  | [] => match acc with [] => [] | _ => [acc] end
  | c :: s' => if is_nl c then acc :: lines_of s' [] else lines_of s' (acc ++ [c])
  end.
Definition line_fields (l : text) : list text := split_at is_space (upto "#"%char l) [].
Definition loadtxt (s : text) : list (list text) :=
  filter (fun r => match r with [] => false | _ => true end) (map line_fields (lines_of s [])).

(** ** [tuple2], lines 233-240: None is the [ArgumentTypeError]; [float_of] is
    None where [float] raises. *)
Section Tuple2.
  Variable float_of : string -> option R.
  Definition tuple2 (s : string) : option (R * R) :=
    match map float_of (split_comma s) with
    | [Some x; Some y] => Some (x, y)
    | _ => None
    end.
End Tuple2.
