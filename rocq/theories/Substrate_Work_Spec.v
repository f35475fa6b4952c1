(** * Elastic energy of a substrate, through its own method *)
From Coq Require Import Reals List Arith.
From Verif Require Import Py FFT_Base HalfSpace_Spec HalfSpace_Model.
Import ListNotations.
Local Open Scope R_scope.

(** [substrate.evaluate(u, pot=True, forces=True)] reports the energy [E]. *)
Definition reported_energy (s : sub) (g : list nat) (u : field) (E : R) : Prop :=
  exists f, evaluate s (mkArr g u) true true = Ret (Some E, f).
