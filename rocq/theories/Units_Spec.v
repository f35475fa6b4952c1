(** * A substrate described in other units *)
From Coq Require Import Reals List Arith.
From Verif Require Import Py FFT_Base HalfSpace_Model Systems_Model Contact_Model.
Import ListNotations.
Local Open Scope R_scope.

(** One old unit of length is [lam] new ones, one old unit of pressure [c] new ones.
    [stiffness_q0] is a pressure per length. *)
Definition in_new_units (c lam : R) (a : args) : args :=
  mkArgs (a_grid a) (c * a_young a) (map (Rmult lam) (a_sizes a)) (option_map (fun q => c / lam * q) (a_q0 a))
    (option_map (Rmult lam) (a_thick a)) (a_poisson a) (a_engine a).

(** Number of new units of force in an old one: the force on a point of a line is a
    pressure times a length. *)
Definition force_unit (c lam : R) (a : args) : R := c * lam ^ List.length (a_grid a).
Definition times (k : R) (f : field) : field := fun x y => k * f x y.

Definition surface_in_units (c lam : R) (d : nat) (sf : surface) : surface :=
  mkSurface (sf_grid sf) (times lam (sf_base sf)) (times lam (sf_plastic sf)) (c * sf_hardness sf) (lam ^ d * sf_area sf).
(** The tolerance of forces and the root finder of the solver in the new units. *)
Definition options_in_units (lam fu : R) (o : options) : options :=
  mkOpt (fu * op_forcetol o) (op_thermotol o) (op_mixfac o) (op_mixdec o) (op_minmix o)
    (fun g x y => option_map (Rmult lam) (op_bisect o (fun z => g (lam * z) / fu) (x / lam) (y / lam))).
