(** * Vocabulary of the contact-system theorems *)
From Coq Require Import Reals List Arith.
From Verif Require Import FFT_Base HalfSpace_Model HalfSpace_Spec.
Import ListNotations.
Local Open Scope R_scope.

(** One- or two-dimensional grid with at least one point. *)
Definition okgrid (g : list nat) : Prop :=
  (length g = 1 \/ length g = 2)%nat /\ (0 < gx g)%nat /\ (0 < gy g)%nat.

(** Number of points of a grid. *)
Definition points (g : list nat) : nat := fold_right Nat.mul 1%nat g.

(** Entry number [k] of an array in row-major order (a one-dimensional array
    has a single column). *)
Definition entry (a : arr) (k : nat) : R :=
  a_val a (k / nth 1 (a_shape a) 1)%nat (k mod nth 1 (a_shape a) 1)%nat.

(** Scalar product of the first [n] entries. *)
Definition vdot (n : nat) (a b : arr) : R := Rsum n (fun k => entry a k * entry b k).

(** [x + d] *)
Definition arr_add (x d : arr) : arr :=
  mkArr (a_shape x) (fun i j => a_val x i j + a_val d i j).

Definition nonneg (n : nat) (a : arr) : Prop := forall k, (k < n)%nat -> 0 <= entry a k.

(** Optimality of a pair (point, gradient) on the non-negative orthant. *)
Definition complementary (n : nat) (x g : arr) : Prop :=
  nonneg n x /\ nonneg n g /\ vdot n x g = 0.

(** Same entries. *)
Definition same_entries (n : nat) (a b : arr) : Prop :=
  forall k, (k < n)%nat -> entry a k = entry b k.
