(** * What the Greenwood-Tripp iteration is meant to compute *)

From Coq Require Import Reals ZArith.
From Coquelicot Require Import Coquelicot.
From Coq Require Import List.
Local Open Scope R_scope.

(** Potential at distance 1 from the centre of a ring of unit line load of
    radius [x] (times the radius): [x/pi * int_0^pi da / sqrt(1+x^2-2x cos a)]. *)
Definition ring_at (x a : R) : R := / sqrt (1 + x ^ 2 - 2 * x * cos a).
Definition ring_potential (x : R) : R := x / PI * RInt (ring_at x) 0 PI.

Section Spec.
  (** [F]: load of the asperities at a distance; [s]: the integration
      variable; [simpson y x]: the quadrature rule. *)
  Variable F : R -> R.
  Variable s : R -> R.
  Variable simpson : list R -> list R -> R.
  Variables d mu rhomax eps tol mix : R.
  Variable n : nat.

  (** The radii, and the piecewise linear function through the values [q]. *)
  Definition spacing : R := rhomax / INR (n - 1).
  Definition radius (i : nat) : R := INR i * spacing.
  Definition pl (q : nat -> R) (x : R) : R :=
    let j := Z.to_nat (Int_part (x / spacing)) in
    q j + (q (S j) - q j) * (x / spacing - INR j).
  Definition arr (q : nat -> R) : list R := map q (seq 0 n).

  (** Displacement of point [i] under the pressures [q], relative to the
      centre: [r int q(r xi) ds(xi) - int q(x) dx], over the radii up to
      [rhomax - eps]. *)
  Definition knot (i j : nat) : R := INR j * ((rhomax - eps) / radius i / INR (n - 1)).
  Definition displacement (q : nat -> R) (i : nat) : R :=
    match i with
    | O => 0
    | S _ => simpson (arr (fun j => radius i * pl q (radius i * knot i j))) (arr (fun j => s (knot i j)))
             - simpson (arr q) (arr radius)
    end.

  (** Local load balance: the pressure that belongs to displacements. *)
  Definition asperity (w : nat -> R) (i : nat) : R := mu * F (d + radius i ^ 2 + w i).

  (** Damped fixed-point iteration from zero. *)
  Fixpoint iterate (k : nat) : (nat -> R) * (nat -> R) :=
    match k with
    | O => (fun _ => 0, fun _ => 0)
    | S m => let (p, w) := iterate m in
             let p' := fun i => mix * asperity w i + (1 - mix) * p i in
             (p', displacement p')
    end.
  Definition iter_p (k : nat) : nat -> R := fst (iterate k).
  Definition iter_w (k : nat) : nat -> R := snd (iterate k).

  (** The change in iteration [k]; the loop starts with the change 1. *)
  Definition settled (k : nat) : Prop :=
    match k with
    | O => 1 <= tol
    | S m => forall i, (i < n)%nat -> Rabs (iter_p k i - iter_p m i) <= tol
    end.
End Spec.
