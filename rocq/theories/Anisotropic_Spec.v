(** * Anisotropic elasticity, for specifications *)

From Coq Require Import Reals.
From Coquelicot Require Import Coquelicot.
From Verif Require Import Elasticity_Spec.
Local Open Scope R_scope.

Definition kron (i j : nat) : R := if Nat.eqb i j then 1 else 0.
Definition sum3s (f : nat -> R) : R := f 0%nat + f 1%nat + f 2%nat.

(** The elastic tensor of a cubic crystal in its own axes. *)
Definition cubic (C11 C12 C44 : R) (i j k l : nat) : R :=
  C12 * kron i j * kron k l + C44 * (kron i k * kron j l + kron i l * kron j k)
  + (C11 - C12 - 2 * C44) * sum3s (fun a => kron i a * kron j a * kron k a * kron l a).
(** A tensor seen from rotated axes. *)
Definition rotated (Rm : nat -> nat -> R) (T : nat -> nat -> nat -> nat -> R) (i j k l : nat) : R :=
  sum3s (fun g => sum3s (fun h => sum3s (fun m => sum3s (fun n =>
    Rm i g * Rm j h * Rm k m * Rm l n * T g h m n)))).
Definition orthogonal (Rm : nat -> nat -> R) : Prop :=
  forall i j, (i < 3)%nat -> (j < 3)%nat -> sum3s (fun a => Rm i a * Rm j a) = kron i j.

(** Cross product, volume of the rows of a matrix, and its orientation. *)
Definition cross3 (u v : nat -> R) (k : nat) : R :=
  match k with
  | 0%nat => u 1%nat * v 2%nat - u 2%nat * v 1%nat
  | 1%nat => u 2%nat * v 0%nat - u 0%nat * v 2%nat
  | _ => u 0%nat * v 1%nat - u 1%nat * v 0%nat
  end.
Definition volume (Rm : nat -> nat -> R) : R := sum3s (fun k => Rm 0%nat k * cross3 (Rm 1%nat) (Rm 2%nat) k).
Definition right_handed (Rm : nat -> nat -> R) : Prop := forall k, (k < 3)%nat -> Rm 0%nat k = cross3 (Rm 1%nat) (Rm 2%nat) k.
Definition left_handed (Rm : nat -> nat -> R) : Prop := forall k, (k < 3)%nat -> Rm 0%nat k = - cross3 (Rm 1%nat) (Rm 2%nat) k.

(** Hooke's law for an elastic tensor. *)
Definition astress (c : nat -> nat -> nat -> nat -> R) (u : nat -> field3) (i j : nat) : field3 := fun x y z =>
  sum3s (fun k => sum3s (fun l => c i j k l * pd k (u l) x y z)).

(** An elastic field with the traction waves [t] on the plane [z = 0], the
    normal of which is in the direction of [z]. *)
Record elastic_field (c : nat -> nat -> nat -> nat -> R) (u : nat -> field3) (t : nat -> R -> R -> R) : Prop := {
  ef_u_diff : forall i, (i < 3)%nat -> differentiable (u i);
  ef_s_diff : forall i j, (i < 3)%nat -> (j < 3)%nat -> differentiable (astress c u i j);
  ef_equil : equilibrium (astress c u);
  ef_force : forall i x y, (i < 3)%nat -> astress c u i 2 x y 0 = t i x y }.

(** The amplitude [v] of a plane wave with the wavevector [(qx, qy, qz)] is in
    equilibrium. *)
Definition csum3s (f : nat -> C) : C := (f 0%nat + f 1%nat + f 2%nat)%C.
Definition wavevector (qx qy : R) (qz : C) (k : nat) : C :=
  match k with 0%nat => RtoC qx | 1%nat => RtoC qy | _ => qz end.
Definition plane_wave (c : nat -> nat -> nat -> nat -> R) (qx qy : R) (qz : C) (v : nat -> C) : Prop :=
  forall i, (i < 3)%nat ->
    csum3s (fun j => csum3s (fun k => csum3s (fun l =>
      (RtoC (c i j k l) * wavevector qx qy qz j * wavevector qx qy qz k * v l)%C))) = RtoC 0.
