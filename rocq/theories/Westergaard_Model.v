(** * The Westergaard solution of ReferenceSolutions/Westergaard.py

    All numbers are real numbers, [pi] is [PI].  The array functions work
    element by element, so they are modelled by functions of one element;
    masked assignments become conditionals.  Not-a-number and infinite
    results ([arcsin] outside [-1,1], square root of a negative number,
    division by [sin 0 = 0], [log 0]) are left out: the theorems exclude the
    arguments that lead to them.  [_pressure] of a scalar, which fails when
    it indexes the scalar [psi[m]], is left out; so is an array [a]. *)

From Coq Require Import Reals.
From Verif Require Import Py.
Local Open Scope R_scope.

(** [np.mod(x, 1.)]: the remainder in [0, 1) of the division by 1. *)
Definition mod1 (x : R) : R := frac_part x.

(** Westergaard.py 52-53. *)
Definition map_x_on_0_05 (x : R) : R := Rabs (mod1 (x + 1 / 2) - 1 / 2).

(** Westergaard.py 84-97, one element, once [psia] is known.  [m] 93, the
    masked assignment 94-96 (an empty mask leaves the zeros of line 92). *)
Definition pressure_psia (psia x : R) : R :=
  let x := map_x_on_0_05 x in
  let psi := PI * x in
  if Rgt_dec (cos psi) (cos psia) then
    2 * cos psi / (sin psia ^ 2) * sqrt (sin psia ^ 2 - sin psi ^ 2)
  else 0.

(** Westergaard.py 56-97, one element.  With neither argument the name
    [psia] is unbound in line 93.  The [mean_pressure] computed in line 89
    is not used. *)
Definition pressure1 (x : R) (contact_radius mean_pressure : option R) : res R :=
  match contact_radius, mean_pressure with
  | Some a, _ => Ret (pressure_psia (PI * a) x)
  | None, Some mp => Ret (pressure_psia (asin (sqrt (mp / PI))) x)
  | None, None => Exc NameErr
  end.

(** Westergaard.py 100-149, one element (scalar or element of an array).
    [sl_out] 136, [chi1] 138 and 141, [chi2] 139 and 142, [res] 144. *)
Definition sl_out (x a : R) : bool :=
  andb (if Rgt_dec x a then true else false) (if Rlt_dec x (1 - a) then true else false).
Definition displacement1 (x a : R) : R :=
  let x := map_x_on_0_05 x in
  let chi1 := if sl_out x a then sqrt (sin (PI * x) ^ 2 - sin (PI * a) ^ 2) else 0 in
  let chi2 := if sl_out x a then ln ((sin (PI * x) + chi1) / sin (PI * a)) else 0 in
  - sin (PI * x) ^ 2 + chi1 * sin (PI * x) - sin (PI * a) ^ 2 * chi2.

(** Westergaard.py 152-167, one element. *)
Definition gap1 (x a : R) : R := sin (PI * x) ^ 2 + displacement1 x a.

(** Westergaard.py 170-191. *)
Definition mean_displacement (a : R) : R :=
  - 1 / 2 + 1 / 2 * cos (PI * a) ^ 2 + sin (PI * a) ^ 2 * ln (sin (PI * a)).

(** Westergaard.py 194-214, a scalar argument. *)
Definition elastic_energy (mean_pressure : R) : res R :=
  if Rle_dec mean_pressure 1 then Ret ((1 / 4 - ln mean_pressure / 2) * mean_pressure ^ 2)
  else Exc AssertionErr.

(** Westergaard.py 217-234. *)
Definition elastic_energy_a (a : R) : R :=
  (1 / 4 - ln (sin (PI * a) ^ 2) / 2) * sin (PI * a) ^ 4.

(** Westergaard.py 237-254. *)
Definition contact_radius (mean_pressure : R) : R := 1 / PI * asin (sqrt mean_pressure).

(** Westergaard.py 257-278. *)
Definition mean_pressure (contact_radius : R) : R := sin (PI * contact_radius) ^ 2.
