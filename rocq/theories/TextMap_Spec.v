(** * Vocabulary of the theorems about text maps *)
From Coq Require Import Reals ZArith List Bool Ascii String.
From Coq Require Import Floats.SpecFloat.
From Verif Require Import HalfSpace_Model Systems_Model HardWall_Model Float_IEEE Float_Double Logger_Model TextMap_Model.
From Coq Require Import List.
Import ListNotations.
Local Open Scope R_scope.

(** Sign and magnitude of a decimal number. *)
Definition magnitude (t : text) : option R :=
  match unsigned t with Some z => Some (IZR z) | None => unsigned_float t end.
Definition decimal (t : text) : option (bool * R) :=
  match t with
  | [] => None
  | c :: u => if Ascii.eqb c "-"%char then option_map (pair true) (magnitude u)
              else option_map (pair false) (magnitude t)
  end.

(** The sign bit. *)
Definition sign (x : D64) : bool :=
  match raw x with S754_zero s | S754_infinity s | S754_finite s _ _ => s | S754_nan => false end.
Definition is_nan (x : D64) : Prop := raw x = S754_nan.

(** [float(t)] is [x]: no double of that sign is nearer to the decimal number;
    what is too large becomes infinite.  (Which of two equally near doubles is
    taken is left open.) *)
Definition reads (t : text) (x : D64) : Prop :=
  match decimal t with
  | Some (s, r) =>
      sign x = s
      /\ (r < 2 ^ 1024 - 2 ^ 970 ->
          finD x /\ forall y, finD y -> Rabs (Rabs (val64 x) - r) <= Rabs (Rabs (val64 y) - r))
      /\ (2 ^ 1024 - 2 ^ 970 <= r -> raw x = S754_infinity s)
  | None =>
      (t = tx "nan" /\ is_nan x) \/ (t = tx "inf" /\ raw x = S754_infinity false)
      \/ (t = tx "-inf" /\ raw x = S754_infinity true)
  end.

(** [np.loadtxt(file)] is the table [X]. *)
Definition loads (file : text) (X : list (list D64)) : Prop := Forall2 (Forall2 reads) (loadtxt file) X.

(** The text of a table of doubles. *)
Definition table_text (X : list (list D64)) : list (list text) := map (map fmt_double) X.

(** [X] has entries in every row, none of which is nan. *)
Definition table (X : list (list D64)) : Prop :=
  (forall r, In r X -> r <> []) /\ forall r x, In r X -> In x r -> ~ is_nan x.

(** The double 0 or 1 of a truth value. *)
Definition of_bool (b : bool) : D64 := if b then dbl 1 0 else mk64 (S754_zero false).

(** ** The maps of a run *)
(** Nothing that goes into the comment contains a carriage return. *)
Definition tidy (versionstr commandline : text) (repr : R -> text) (unit : string) : Prop :=
  ~ In cr versionstr /\ ~ In cr commandline /\ (forall x, ~ In cr (repr x)) /\ ~ In cr (tx unit).
(** Nothing of it contains a line feed. *)
Definition one_line (versionstr commandline : text) (repr : R -> text) (unit : string) : Prop :=
  ~ In nl versionstr /\ ~ In nl commandline /\ (forall x, ~ In nl (repr x)) /\ ~ In nl (tx unit).

(** The entry of a map in row [i] and column [j] has the value of the
    calculation, to 19 digits; if that value is a double, then it is read
    exactly. *)
Definition shows_value (rows : list (list text)) (i j : nat) (v : R) : Prop :=
  exists w s r, nth_error (nth i rows []) j = Some w /\ decimal w = Some (s, r)
    /\ Rabs ((if s then - r else r) - v) <= 5 / 10 ^ 19 * Rabs v
    /\ forall x, finD x -> val64 x = v -> (exists y, reads w y) /\ forall y, reads w y -> finD y /\ val64 y = v.
Definition rectangle (rows : list (list text)) (n k : nat) : Prop :=
  List.length rows = n /\ forall row, In row rows -> List.length row = k.
Definition map_shape (m : written) : list nat :=
  match m with WContact s _ => s | WPressure _ a => a_shape a | WLength _ a => a_shape a end.
Definition map_value (m : written) (i j : nat) : R :=
  match m with WContact _ z => if z i j then 1 else 0 | WPressure _ a => a_val a i j | WLength _ a => a_val a i j end.

(** The lines of a file. *)
Definition file_lines (s : text) : list text := lines_of s [].
