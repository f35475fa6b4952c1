(** * Vocabulary of the theorems about the contact map of the command line *)
From Coq Require Import Reals List Arith Bool String.
From Verif Require Import FFT_Base HalfSpace_Model Systems_Model Pipeline_Model Pipeline_Spec HardWall_Model HardWall_Spec.
From Coq Require Import List.
Import ListNotations.
Local Open Scope R_scope.

(** Number of marked points of a map on a grid of [n] times [m] points. *)
Definition marked (n m : nat) (z : zone) : R := Rsum2 n m (fun x y => if z x y then 1 else 0).

(** The penetration tolerance of a calculation: [--pentol], or a tenth of the
    rms height per point along a side, or, on a surface without roughness, a
    thousandth of the mean height above the substrate. *)
Definition tolerated (rms : surface -> R) (a : hw_args) (n m : nat) (s : hdone) (tol : R) : Prop :=
  match hw_pentol a with
  | Some t => tol = t
  | None =>
      let r := rms (hd_before s) in
      (r <> 0 /\ tol = r / (10 * ((INR n + INR m) / 2)))
      \/ (r = 0 /\ exists x, hd_off s = Some x
          /\ let d := x + amean (heights (hd_before s)) in
             (d <> 0 /\ tol = d / 1000) \/ (d = 0 /\ tol = 1 / 1000))
  end.

(** All points of the grid carry the same pressure [p]. *)
Definition uniform_pressure (n m : nat) (f : field) (p : R) : Prop :=
  forall x y, (x < n)%nat -> (y < m)%nat -> f x y = p.
