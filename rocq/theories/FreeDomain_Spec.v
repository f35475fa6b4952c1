(** * Contact on a substrate that may be larger than the region of interest *)
From Coq Require Import Reals List Arith.
From Verif Require Import Py FFT_Base HalfSpace_Spec HalfSpace_Model Free_Model Free_Spec Systems_Model.
Import ListNotations.
Local Open Scope R_scope.

(** The compressive forces [F] hold the substrate and the surface of heights [h],
    moved by [delta], in contact: [u] is what evaluate_disp returns for them (a
    compressive force is negative in the package), there is no tension, the surface
    penetrates by no more than [tol], and points that carry a force are not further
    than [tol] from it. *)
Definition in_contact (sb : substrate) (h : field) (delta tol : R) (F u : field) : Prop :=
  (exists U, sb_disp sb (mkArr (sb_grid sb) (fun x y => - F x y)) = Ret U
     /\ forall x y, on_grid (sb_grid sb) x y -> u x y = a_val U x y)
  /\ forall x y, on_grid (sb_grid sb) x y ->
     0 <= F x y /\ - tol <= u x y - (h x y + delta) /\ (0 < F x y -> u x y - (h x y + delta) <= tol).

(** Points of the [n] x [m] rectangle whose first corner is ([i],[j]). *)
Definition in_window (n m i j x y : nat) : Prop := (i <= x < i + n)%nat /\ (j <= y < j + m)%nat.

(** Two free half-spaces of one material, the pixels of the same size, the grid of the
    first in the second with its first corner at ([i],[j]). *)
Definition enlarged (a a' : fargs) (i j : nat) : Prop :=
  0 < fa_young a /\ fa_young a' = fa_young a
  /\ 0 < cell_size (fa_sizes a) 0 /\ 0 < cell_size (fa_sizes a) 1
  /\ 0 < cell_size (fa_sizes a') 0 /\ 0 < cell_size (fa_sizes a') 1
  /\ (forall k, (k < 2)%nat -> spacing (fa_grid a') (fa_sizes a') k = spacing (fa_grid a) (fa_sizes a) k)
  /\ (i + gx (fa_grid a) <= gx (fa_grid a'))%nat /\ (j + gy (fa_grid a) <= gy (fa_grid a'))%nat.
(** The surface [h'] of the second is [h] on the grid of the first and does not reach the
    undeformed half-space elsewhere. *)
Definition continued (a a' : fargs) (i j : nat) (h h' : field) (delta : R) : Prop :=
  (forall x y, on_grid (fa_grid a) x y -> h' (i + x)%nat (j + y)%nat = h x y)
  /\ (forall x y, on_grid (fa_grid a') x y -> ~ in_window (gx (fa_grid a)) (gy (fa_grid a)) i j x y -> h' x y + delta <= 0).
