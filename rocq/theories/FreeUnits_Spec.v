(** * A free or semi-periodic half-space described in other units *)
From Coq Require Import Reals List Arith.
From Verif Require Import Py FFT_Base HalfSpace_Model Free_Model Systems_Model.
Import ListNotations.
Local Open Scope R_scope.

(** One old unit of length is [lam] new ones, one old unit of pressure [c] new ones. *)
Definition free_in_units (c lam : R) (a : fargs) : fargs :=
  mkFargs (fa_grid a) (c * fa_young a) (map (Rmult lam) (fa_sizes a)) (fa_engine a) (fa_check a).
Definition semi_in_units (c lam : R) (a : sargs) : sargs :=
  mkSargs (free_in_units c lam (sa_base a)) (sa_per a) (sa_images a).

(** The same array, every entry multiplied by [k]; the same outcome. *)
Definition scaled (k : R) (u : arr) : arr := mkArr (a_shape u) (fun x y => k * a_val u x y).
Definition outcome {A B} (f : A -> B) (r : res A) : res B := match r with Ret x => Ret (f x) | Exc e => Exc e end.

(** The two descriptions of one half-space. *)
Definition same_space (c lam : R) (sb : substrate) (s : fsub) (sb' : substrate) (s' : fsub) : Prop :=
  (exists a, free_construct a = Ret s /\ free_construct (free_in_units c lam a) = Ret s' /\ sb = free s /\ sb' = free s')
  \/ (exists a, semi_construct a = Ret s /\ semi_construct (semi_in_units c lam a) = Ret s' /\ sb = semi s /\ sb' = semi s').
