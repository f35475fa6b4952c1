(** * Forces put elsewhere *)
From Coq Require Import Reals List Arith Bool.
From Verif Require Import FFT_Base HalfSpace_Spec.
Import ListNotations.
Local Open Scope R_scope.

(** The [n] x [m] pattern [p] with its first corner at ([i],[j]), nothing elsewhere. *)
Definition placed (n m i j : nat) (p : field) : field := fun x y =>
  if andb (andb (Nat.leb i x) (Nat.ltb x (i + n))) (andb (Nat.leb j y) (Nat.ltb y (j + m))) then p (x - i)%nat (y - j)%nat else 0.
(** Mirror images of a field on the grid [g]. *)
Definition mirror_x (g : list nat) (f : field) : field := fun x y => f (gx g - 1 - x)%nat y.
Definition mirror_y (g : list nat) (f : field) : field := fun x y => f x (gy g - 1 - y)%nat.
