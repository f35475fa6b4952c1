(** * Vocabulary of the theorems about the contact calculation as a whole *)
From Coq Require Import Reals ZArith List Arith Bool.
From Coquelicot Require Import Complex.
From Verif Require Import FFT_Base HalfSpace_Spec Free_Spec.
Import ListNotations.
Local Open Scope R_scope.

(** Pressure [p] and displacement [u] on the surface of a periodic elastic
    half-space of contact modulus one: the elastic response of every plane
    wave, and the stiffness of the uniform displacement chosen by the code
    (mean of the stiffnesses of the two longest waves along the axes). *)
Definition periodic_response (g : list nat) (lx ly : R) (p u : field) : Prop :=
  (forall k l, on_grid g k l -> ~ (k = 0 /\ l = 0)%nat ->
     fft2 (gx g) (gy g) u k l
     = (RtoC (2 / wavenumber g lx ly k l) * fft2 (gx g) (gy g) p k l)%C)
  /\ mean g u = 4 / (wavenumber g lx ly 1 0 + wavenumber g lx ly 0 1) * mean g p.

(** The same for the half-space without periodicity: every pixel carries its
    pressure uniformly (Love). *)
Definition free_response (g : list nat) (sizes : list R) (p u : field) : Prop :=
  forall x y, on_grid g x y ->
    u x y = Rsum2 (gx g) (gy g) (fun x' y' =>
      influence g 1 sizes (offset x x') (offset y y') * p x' y').
