(** * The contact problem on a periodic half-space *)
From Coq Require Import Reals List Arith.
From Verif Require Import FFT_Base HalfSpace_Spec Contact_Spec.
Import ListNotations.
Local Open Scope R_scope.

(** Distance between the deformed half-space and the surface of heights [h]
    moved by [delta]. *)
Definition gap (h : field) (delta : R) (u : field) : field := fun x y => u x y - h x y - delta.

(** Pressure [p] and displacement [u] of a half-space in contact with this
    surface: elastic response, no tension, no penetration, no pressure where
    there is a gap (Signorini). *)
Definition in_contact (g : list nat) (lx ly : R) (h : field) (delta : R) (p u : field) : Prop :=
  periodic_response g lx ly p u
  /\ forall x y, on_grid g x y -> 0 <= p x y /\ 0 <= gap h delta u x y /\ p x y * gap h delta u x y = 0.

(** Stiffness of the uniform displacement. *)
Definition uniform (g : list nat) (lx ly : R) : R := (wavenumber g lx ly 1 0 + wavenumber g lx ly 0 1) / 4.

(** Twice the elastic energy of the difference of two states. *)
Definition distance (g : list nat) (p u p' u' : field) : R :=
  inner g (fun x y => p x y - p' x y) (fun x y => u x y - u' x y).

(** No tension; penetration, and gap under pressure, at most [eps]. *)
Definition nearly_in_contact (g : list nat) (h : field) (delta : R) (p u : field) (eps : R) : Prop :=
  forall x y, on_grid g x y ->
    0 <= p x y /\ - eps <= gap h delta u x y /\ (0 < p x y -> gap h delta u x y <= eps).
