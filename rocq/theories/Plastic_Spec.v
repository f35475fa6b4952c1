(** * The contact problem with a hardness *)
From Coq Require Import Reals List Arith.
From Verif Require Import FFT_Base HalfSpace_Spec Contact_Spec Signorini_Spec.
Import ListNotations.
Local Open Scope R_scope.

(** Pressure [p] and displacement [u] of a half-space in contact with a surface
    of heights [h] moved by [delta] that yields at the pressure [H]: no tension,
    penetration only where the surface yields, no pressure where there is a
    gap. *)
Definition in_plastic_contact (g : list nat) (lx ly H : R) (h : field) (delta : R) (p u : field) : Prop :=
  periodic_response g lx ly p u
  /\ forall x y, on_grid g x y ->
     0 <= p x y <= H /\ (p x y < H -> 0 <= gap h delta u x y) /\ (0 < p x y -> gap h delta u x y <= 0).

(** The same, penetration and gap at most [eps]. *)
Definition nearly_in_plastic_contact (g : list nat) (H : R) (h : field) (delta : R) (p u : field) (eps : R) : Prop :=
  forall x y, on_grid g x y ->
    0 <= p x y <= H /\ (p x y < H -> - eps <= gap h delta u x y) /\ (0 < p x y -> gap h delta u x y <= eps).

(** The surface pushed back to the half-space where it yields. *)
Definition flattened (H : R) (h : field) (delta : R) (p u : field) : field :=
  fun x y => if Rlt_dec (p x y) H then h x y else u x y - delta.
