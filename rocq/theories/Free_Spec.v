(** * Vocabulary of the free and semi-periodic half-space theorems *)

From Coq Require Import Reals ZArith List Arith.
From Verif Require Import FFT_Base HalfSpace_Spec.
Import ListNotations.
Local Open Scope R_scope.

(** Grid spacing along axis [i]. *)
Definition spacing (g : list nat) (sizes : list R) (i : nat) : R :=
  cell_size sizes i / INR (nth i g 1%nat).

(** Displacement at distance ([x],[y]) from the centre of a pixel of size
    [2a] x [2b] that carries unit pressure (Love 1929, Johnson 1985 p. 54),
    written with the antiderivative [u ln(v + r) + v ln(u + r)] of [1/r]. *)
Definition antider (u v : R) : R :=
  let r := sqrt (u * u + v * v) in u * ln (v + r) + v * ln (u + r).
Definition love (E a b x y : R) : R :=
  1 / (PI * E) * (antider (x + a) (y + b) - antider (x + a) (y - b)
                  - antider (x - a) (y + b) + antider (x - a) (y - b)).

(** Displacement at grid offset ([i],[j]) due to unit pressure on one pixel. *)
Definition influence (g : list nat) (E : R) (sizes : list R) (i j : Z) : R :=
  love E (spacing g sizes 0 / 2) (spacing g sizes 1 / 2)
         (IZR i * spacing g sizes 0) (IZR j * spacing g sizes 1).

(** Offset between grid points as an integer; [wrap] reduces it to the
    minimum image [-n/2 <= d < (n+1)/2] in a periodic direction. *)
Definition offset (x x' : nat) : Z := (Z.of_nat x - Z.of_nat x')%Z.
Definition wrap (n : nat) (d : Z) : Z :=
  ((d + Z.of_nat (n / 2)) mod Z.of_nat n - Z.of_nat (n / 2))%Z.
Definition image_offset (per : bool) (n : nat) (x x' : nat) : Z :=
  if per then wrap n (offset x x') else offset x x'.

(** Sum over the integers from [-m] to [m]. *)
Definition sum_sym (m : nat) (f : Z -> R) : R :=
  Rsum (2 * m + 1) (fun k => f (Z.of_nat k - Z.of_nat m)%Z).
Definition image_sum (per : bool) (m : nat) (f : Z -> R) : R :=
  if per then sum_sym m f else f 0%Z.

(** Influence coefficient including [m] periodic images to either side in the
    periodic directions. *)
Definition image_influence (g : list nat) (E : R) (sizes : list R)
    (per : bool * bool) (m : nat) (i j : Z) : R :=
  image_sum (fst per) m (fun ix => image_sum (snd per) m (fun iy =>
    influence g E sizes (i + ix * Z.of_nat (gx g)) (j + iy * Z.of_nat (gy g)))).

(** Value of a field on the larger grid [g'] that is [f] on [g] and zero
    elsewhere. *)
Definition extend0 (g : list nat) (f : field) : field := fun x y =>
  if andb (Nat.ltb x (gx g)) (Nat.ltb y (gy g)) then f x y else 0.

(** Outermost rows and columns of an [n0] x [n1] grid. *)
Definition rim (n : nat * nat) (x y : nat) : Prop :=
  (x < fst n)%nat /\ (y < snd n)%nat /\
  (x = 0%nat \/ S x = fst n \/ y = 0%nat \/ S y = snd n).

(** Translation along one axis only. *)
Definition translate_x (g : list nat) (a : nat) (f : field) : field :=
  fun x y => f ((x + a) mod gx g)%nat y.
Definition translate_y (g : list nat) (b : nat) (f : field) : field :=
  fun x y => f x ((y + b) mod gy g)%nat.
