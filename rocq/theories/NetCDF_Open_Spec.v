(** * Vocabulary of the theorems on selecting frames *)
From Coq Require Import Reals ZArith List Arith Bool String Ascii.
From Verif Require Import Py Logger_Model NetCDF_Model.
Import ListNotations.
Local Open Scope Z_scope.

(** The indices of the frames of a file with [n] frames. *)
Definition frames (n : nat) : list Z := map Z.of_nat (seq 0 n).

(** What a slice [a:b:s] stands for: of all frames those from [a] up to but not
    including [b], every [s]-th counted from the first; for negative [s] the same
    downwards. Negative numbers count from the end. *)
Definition from_end (n : nat) (z : Z) : Z := if z <? 0 then z + Z.of_nat n else z.
Definition or_else (a : option Z) (f : Z -> Z) (d : Z) : Z := match a with Some z => f z | None => d end.
Definition upwards (n : nat) (a b : option Z) (s : Z) : list Z :=
  let first := Z.max 0 (or_else a (from_end n) 0) in
  let stop := or_else b (from_end n) (Z.of_nat n) in
  filter (fun i => (first <=? i) && (i <? stop) && ((i - first) mod s =? 0))%bool (frames n).
Definition downwards (n : nat) (a b : option Z) (s : Z) : list Z :=
  let first := Z.min (Z.of_nat n - 1) (or_else a (from_end n) (Z.of_nat n - 1)) in
  let stop := or_else b (from_end n) (-1) in
  rev (filter (fun i => (i <=? first) && (stop <? i) && ((first - i) mod s =? 0))%bool (frames n)).

(** The text of a file name and a number, [name@z]. *)
Definition at_frame (name : string) (z : Z) : string :=
  String.append name (String "@"%char (string_of_list_ascii (str_int z))).
Definition has_at (s : string) : Prop := In "@"%char (list_ascii_of_string s).

(** A rectangle of numbers within a grid: what a block holds at a point of the
    grid. *)
Record block := mkBlock { b_nx : nat; b_ny : nat; b_x0 : nat; b_y0 : nat; b_values : list R }.
Definition covers (B : block) (a b : nat) : Prop :=
  (b_x0 B <= a < b_x0 B + b_nx B)%nat /\ (b_y0 B <= b < b_y0 B + b_ny B)%nat.
Definition value_at (B : block) (a b : nat) : option R :=
  nth_error (b_values B) ((a - b_x0 B) * b_ny B + (b - b_y0 B)).
Definition inside (NX NY : nat) (B : block) : Prop :=
  (0 < b_nx B)%nat /\ (0 < b_ny B)%nat /\
  (b_x0 B + b_nx B <= NX)%nat /\ (b_y0 B + b_ny B <= NY)%nat /\ List.length (b_values B) = (b_nx B * b_ny B)%nat.

(** Writing blocks one after the other. *)
Fixpoint set_grids ov subnormal (i : Z) (name : string) (Bs : list block) (c : container) : container * res unit :=
  match Bs with
  | [] => (c, Ret tt)
  | B :: Bs' =>
      match set_grid ov subnormal i name [b_nx B; b_ny B] (b_values B) (b_x0 B) (b_y0 B) c with
      | (c1, Exc e) => (c1, Exc e)
      | (c1, Ret _) => set_grids ov subnormal i name Bs' c1
      end
  end.

(** What is known about a point of a frame: the value read there, or the value of
    missing data of netCDF. *)
Definition point (NY : nat) (i : Z) (name : string) (t : dtype) (c : container) (a b : nat) : option R :=
  match get_frame i name c with
  | Ret (Some (_, l)) => nth_error l (a * NY + b)
  | _ => Some (fill t)
  end.
(** Frames already there are whole arrays. *)
Definition whole (NX NY : nat) (i : Z) (name : string) (c : container) : Prop :=
  forall sh l, get_frame i name c = Ret (Some (sh, l)) -> List.length l = (NX * NY)%nat.
