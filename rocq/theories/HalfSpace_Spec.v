(** * Vocabulary of the half-space theorems (independent of the model) *)

From Coq Require Import Reals List Arith.
From Verif Require Import FFT_Base.
Import ListNotations.
Local Open Scope R_scope.

(** Extent of a grid given as the tuple [nb_grid_pts]; a one-dimensional grid
    has a single column. *)
Definition gx (g : list nat) : nat := nth 0 g 1%nat.
Definition gy (g : list nat) : nat := nth 1 g 1%nat.

Definition on_grid (g : list nat) (x y : nat) : Prop :=
  (x < gx g)%nat /\ (y < gy g)%nat.

Definition same_on (g : list nat) (f f' : field) : Prop :=
  forall x y, on_grid g x y -> f x y = f' x y.

(** Sum over all grid points, mean value, scalar product. *)
Definition total (g : list nat) (f : field) : R := Rsum2 (gx g) (gy g) f.
Definition mean (g : list nat) (f : field) : R :=
  total g f / (INR (gx g) * INR (gy g)).
Definition inner (g : list nat) (f f' : field) : R :=
  total g (fun x y => f x y * f' x y).

(** Periodic translation. *)
Definition translate (g : list nat) (a b : nat) (f : field) : field :=
  fun x y => f ((x + a) mod gx g)%nat ((y + b) mod gy g)%nat.

(** Plane wave with [p], [q] periods along the axes and phase [phi]. *)
Definition plane_wave (g : list nat) (p q : nat) (phi : R) : field := fun x y =>
  cos (2 * PI * (INR p * INR x / INR (gx g) + INR q * INR y / INR (gy g)) + phi).

(** Magnitude of the (minimum image) wavevector of that wave in a cell of
    size [lx] x [ly]. *)
Definition wavenumber (g : list nat) (lx ly : R) (p q : nat) : R :=
  2 * PI * sqrt ((INR (Nat.min p (gx g - p)) / lx) ^ 2
                 + (INR (Nat.min q (gy g - q)) / ly) ^ 2).

Definition transpose (f : field) : field := fun x y => f y x.

(** Cell size along axis [i]: the last given size is repeated. *)
Definition cell_size (sizes : list R) (i : nat) : R :=
  nth (Nat.min i (length sizes - 1)) sizes 0.

(** Contact modulus. *)
Definition contact_modulus (young nu : R) : R := young / (1 - nu ^ 2).

(** Stiffness (pressure per displacement) of an elastic layer of thickness [t]
    on a rigid base at wavenumber [kappa] (radians per length), Carbone and
    Mangialardi 2008, the reference named in the docstring of the code. *)
Definition layer_stiffness (young nu t kappa : R) : R :=
  contact_modulus young nu * kappa / 2 *
  (((3 - 4 * nu) * cosh (2 * (kappa * t)) + 2 * (kappa * t) ^ 2
    + (5 - 12 * nu + 8 * nu ^ 2))
   / ((3 - 4 * nu) * sinh (2 * (kappa * t)) - 2 * (kappa * t))).

(** Uniaxial (oedometric) modulus over thickness. *)
Definition uniaxial_stiffness (young nu t : R) : R :=
  young * (1 - nu) / ((1 + nu) * (1 - 2 * nu)) / t.

(** Surface area represented by one grid point (a length in one dimension). *)
Definition point_area (g : list nat) (sizes : list R) : R :=
  (if Nat.eqb (length g) 1 then cell_size sizes 0
   else cell_size sizes 0 * cell_size sizes 1) / (INR (gx g) * INR (gy g)).
