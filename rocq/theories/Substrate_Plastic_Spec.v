(** * Contact with a hardness on a periodic substrate, through its own methods *)
From Coq Require Import Reals List Arith.
From Verif Require Import Py FFT_Base HalfSpace_Spec HalfSpace_Model Signorini_Spec Substrate_Contact_Spec.
Import ListNotations.
Local Open Scope R_scope.

(** The substrate pressed against the surface of heights [h], moved by [delta], that
    yields when the force on a point reaches [H]: no tension, penetration only where
    the surface yields, no force where there is a gap. *)
Definition touching_yielding (s : sub) (g : list nat) (H : R) (h : field) (delta : R) (F u : field) : Prop :=
  elastic_response s g F u
  /\ forall x y, on_grid g x y ->
     0 <= F x y <= H /\ (F x y < H -> 0 <= gap h delta u x y) /\ (0 < F x y -> gap h delta u x y <= 0).
