(** * Vocabulary of the theorems about the command line with the real solver *)
From Coq Require Import Reals ZArith List Arith Bool String.
From Coquelicot Require Import Complex.
From Verif Require Import FFT_Base HalfSpace_Spec HalfSpace_Model Free_Spec Systems_Model HardWall_Model.
From Coq Require Import List.
Import ListNotations.
Local Open Scope R_scope.

(** Pressure per displacement of a wave on the surface of a half-space, or of a
    layer of thickness [t] on a rigid base; for the uniform displacement of the
    half-space the mean of the two longest waves along the axes. *)
Definition wave_stiffness (young nu : R) (t : option R) (n m : nat) (lx ly : R) (k l : nat) : R :=
  let w := wavenumber [n; m] lx ly in
  match t, andb (Nat.eqb k 0) (Nat.eqb l 0) with
  | None, true => contact_modulus young nu / 2 * ((w 1%nat 0%nat + w 0%nat 1%nat) / 2)
  | None, false => contact_modulus young nu / 2 * w k l
  | Some t, true => uniaxial_stiffness young nu t
  | Some t, false => layer_stiffness young nu t (w k l)
  end.

(** The pressures [p] on the points of a grid of [n] times [m] points and the
    displacements [u] belong to each other: periodically repeated, or (Love)
    alone on the half-space. *)
Definition periodic_state (young nu : R) (t : option R) (n m : nat) (lx ly : R) (p u : field) : Prop :=
  forall k l, (k < n)%nat -> (l < m)%nat ->
    fft2 n m p k l
    = (RtoC (wave_stiffness young nu t n m lx ly k l) * fft2 n m u k l)%C.
Definition single_state (young nu : R) (n m : nat) (lx ly : R) (p u : field) : Prop :=
  forall x y, (x < n)%nat -> (y < m)%nat ->
    u x y = Rsum2 n m (fun x' y' =>
      influence [n; m] (contact_modulus young nu) [lx; ly] (offset x x') (offset y y') * p x' y').

(** Area of a point, and the topography of a file on such a grid. *)
Definition cell_area (n m : nat) (lx ly : R) : R := lx * ly / INR (n * m).
Definition scanned_as (t : scanned) (n m : nat) (lx ly : R) : Prop :=
  sf_grid (sc_surface t) = [n; m] /\ sc_sizes t = [lx; ly] /\ sf_area (sc_surface t) = cell_area n m lx ly.
Definition pressures (n m : nat) (lx ly : R) (f : arr) : field := fun x y => a_val f x y / cell_area n m lx ly.

(** Sizes, modulus, Poisson number, thickness and hardness of a material. *)
Definition physical (a : hw_args) (lx ly : R) : Prop :=
  0 < lx /\ 0 < ly /\ 0 < hw_modulus a /\ -1 < hw_poisson a < 1
  /\ (forall t, hw_thickness a = Some t -> 0 < t /\ hw_poisson a < 1 / 2)
  /\ (forall h, hw_hardness a = Some h -> 0 <= h).

(** An elastic state of the substrate of the arguments. *)
Definition elastic_state (a : hw_args) (n m : nat) (lx ly : R) (p u : field) : Prop :=
  (hw_boundary a = "periodic"%string -> periodic_state (hw_modulus a) (hw_poisson a) (hw_thickness a) n m lx ly p u)
  /\ (hw_boundary a = "nonperiodic"%string -> single_state (hw_modulus a) (hw_poisson a) n m lx ly p u).
