(** * The contact problem on a periodic substrate, through its own methods *)
From Coq Require Import Reals List Arith.
From Verif Require Import Py FFT_Base HalfSpace_Spec HalfSpace_Model Signorini_Spec.
Import ListNotations.
Local Open Scope R_scope.

(** [u] is what [substrate.evaluate_disp] returns for the compressive forces [F]
    (a compressive force is negative in the sign convention of the package). *)
Definition elastic_response (s : sub) (g : list nat) (F u : field) : Prop :=
  exists U, evaluate_disp s (mkArr g (fun x y => - F x y)) = Ret U
  /\ forall x y, on_grid g x y -> u x y = a_val U x y.

(** No tension, no penetration of the surface of heights [h] moved by [delta], no
    force where there is a gap. *)
Definition touching (s : sub) (g : list nat) (h : field) (delta : R) (F u : field) : Prop :=
  elastic_response s g F u
  /\ forall x y, on_grid g x y -> 0 <= F x y /\ 0 <= gap h delta u x y /\ F x y * gap h delta u x y = 0.

(** Net force of [substrate.evaluate_force] per net displacement. *)
Definition net_stiffness (s : sub) (g : list nat) (k : R) : Prop :=
  forall u, exists f, evaluate_force s (mkArr g u) = Ret f /\ total g (a_val f) = - k * total g u.
