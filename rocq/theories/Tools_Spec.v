(** * Vocabulary of the theorems on Tools/common.py *)
From Coq Require Import Reals ZArith List String Ascii.
From Verif Require Import HalfSpace_Model Systems_Spec Tools_Model.
Import ListNotations.
Local Open Scope R_scope.

(** [v] is a number with value [x]. *)
Inductive number : pyval -> R -> Prop :=
| number_int : forall n, number (VInt n) (IZR n)
| number_float : forall x, number (VFloat x) x.

(** Equal Python values: numbers by value, containers of the same type entry
    by entry. *)
Inductive same : pyval -> pyval -> Prop :=
| same_none : same VNone VNone
| same_num : forall a b x, number a x -> number b x -> same a b
| same_str : forall s, same (VStr s) (VStr s)
| same_tuple : forall l m, Forall2 same l m -> same (VTuple l) (VTuple m)
| same_list : forall l m, Forall2 same l m -> same (VList l) (VList m).

(** What one gets by iterating over a container. *)
Inductive content : pyval -> list pyval -> Prop :=
| content_tuple : forall l, content (VTuple l) l
| content_list : forall l, content (VList l) l
| content_empty : content (VStr EmptyString) []
| content_str : forall c s l, content (VStr s) l ->
    content (VStr (String c s)) (VStr (String c EmptyString) :: l).

Definition container (v : pyval) : Prop := exists l, content v l.

(** [x'] is [x] with [t] added to entry [i]. *)
Definition stepped (x : arr) (i : nat) (t : R) (x' : arr) : Prop :=
  a_shape x' = a_shape x
  /\ forall k, (k < points (a_shape x))%nat ->
       entry x' k = entry x k + (if Nat.eqb k i then t else 0).

(** Signed index of smallest magnitude congruent to [i] modulo [n]; of the two
    candidates [-n/2] and [n/2] the negative one. *)
Definition minimum_image (n i : nat) (k : Z) : Prop :=
  (exists j, k = Z.of_nat i + j * Z.of_nat n)%Z
  /\ (- Z.of_nat n <= 2 * k < Z.of_nat n)%Z.
