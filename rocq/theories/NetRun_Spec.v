(** * Vocabulary of the theorems about the NetCDF file of a run *)
From Coq Require Import Reals ZArith List String.
From Verif Require Import Py HalfSpace_Model Systems_Model NetCDF_Model.
Import ListNotations.
Local Open Scope Z_scope.

(** [container[i].name] is the map [v] of [n x m] points. *)
Definition reads_map (c : container) (i : Z) (name : string) (n m : nat) (v : arr) : Prop :=
  exists l, get_frame i name c = Ret (Some ([n; m], l)) /\ List.length l = (n * m)%nat
    /\ forall x y, (x < n)%nat -> (y < m)%nat -> nth_error l (x * m + y) = Some (a_val v x y).
(** [container[i].name] is the number [x]. *)
Definition reads_number (c : container) (i : Z) (name : string) (x : R) : Prop :=
  get_frame i name c = Ret (Some ([], [x])).

(** A frame contains the results of a calculation. *)
Definition holds (c : container) (n m : nat) (i : Z) (u f : arr) (position load area : R) : Prop :=
  reads_map c i "displacements" n m u /\ reads_map c i "forces" n m f
  /\ reads_number c i "displacement" position /\ reads_number c i "load" load /\ reads_number c i "area" area.

(** The forces that a solver returns are on the grid of the topography, and its
    displacements are not smaller (ConstrainedConjugateGradients.py 459-462,
    499-502). *)
Definition fits_grid (solver : substrate -> surface -> option R -> option R -> option R -> option R -> nat -> res oresult)
    (sb : substrate) (n m : nat) : Prop :=
  forall sf h off force pentol maxiter r, sf_grid sf = [n; m] -> solver sb sf h off force pentol maxiter = Ret r ->
    a_shape (o_jac r) = [n; m] /\ exists p q, a_shape (o_x r) = [p; q] /\ (n <= p)%nat /\ (m <= q)%nat.
