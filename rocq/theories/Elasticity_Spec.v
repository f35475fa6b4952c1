(** * Linear elasticity of a half space, for specifications

    Displacement fields [u k x y z], [k = 0, 1, 2]; the material is [z >= 0]. *)

From Coq Require Import Reals.
From Coquelicot Require Import Coquelicot.
Local Open Scope R_scope.

Definition field3 := R -> R -> R -> R.

(** Partial derivatives. *)
Definition pd (i : nat) (f : field3) : field3 := fun x y z =>
  match i with
  | O => Derive (fun t => f t y z) x
  | S O => Derive (fun t => f x t z) y
  | _ => Derive (fun t => f x y t) z
  end.
Definition differentiable (f : field3) : Prop := forall x y z,
  ex_derive (fun t => f t y z) x /\ ex_derive (fun t => f x t z) y /\ ex_derive (fun t => f x y t) z.

(** Hooke's law for the Lame constants [lam] and [mu]. *)
Definition stress (lam mu : R) (u : nat -> field3) (i j : nat) : field3 := fun x y z =>
  (if Nat.eqb i j then lam * (pd 0 (u 0%nat) x y z + pd 1 (u 1%nat) x y z + pd 2 (u 2%nat) x y z) else 0)
  + mu * (pd i (u j) x y z + pd j (u i) x y z).

(** Equilibrium without body forces. *)
Definition equilibrium (sig : nat -> nat -> field3) : Prop :=
  forall i x y z, (i < 3)%nat ->
    pd 0 (sig i 0%nat) x y z + pd 1 (sig i 1%nat) x y z + pd 2 (sig i 2%nat) x y z = 0.

(** The real wave that belongs to a complex amplitude. *)
Definition wave (qx qy : R) (a : C) (x y : R) : R :=
  fst a * cos (qx * x + qy * y) - snd a * sin (qx * x + qy * y).

(** [u] is an elastic field of the half space that decays with depth, with the
    forces [f] per area acting on the surface. *)
Record half_space_solution (lam mu : R) (u : nat -> field3) (f : nat -> R -> R -> R) : Prop := {
  hs_u_diff : forall i, (i < 3)%nat -> differentiable (u i);
  hs_s_diff : forall i j, (i < 3)%nat -> (j < 3)%nat -> differentiable (stress lam mu u i j);
  hs_equil : equilibrium (stress lam mu u);
  hs_force : forall i x y, (i < 3)%nat -> - stress lam mu u i 2 x y 0 = f i x y;
  hs_decay : forall i x y, (i < 3)%nat -> is_lim (fun z => u i x y z) p_infty 0 }.
