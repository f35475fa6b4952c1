(** * Elastic energy of a half-space in contact *)
From Coq Require Import Reals List Arith.
From Verif Require Import FFT_Base HalfSpace_Spec Signorini_Spec.
Local Open Scope R_scope.

(** Elastic energy of the pressure [p] with displacement [u], in units of the
    area of a grid point: the work of a pressure that grows in proportion. *)
Definition stored (g : list nat) (p u : field) : R := inner g p u / 2.

(** Complementary energy for the surface of heights [h] moved by [delta]. *)
Definition complementary (g : list nat) (h : field) (delta : R) (p u : field) : R :=
  stored g p u - inner g p (fun x y => h x y + delta).
