(** * [s] and [xi] of ReferenceSolutions/GreenwoodTripp.py with any limits

    GreenwoodTripp_Model.v has them with the default values of [xi1], [xi2],
    [s1] and [s2].  Arrays are lists of floats (real numbers). *)
From Coq Require Import Reals Bool.
From Verif Require Import Py GreenwoodTripp_Model.
From Coq Require Import List.
Import ListNotations.
Local Open Scope R_scope.

Definition below (x y : R) : bool := if Rlt_dec x y then true else false.

(** [r[mask] = value], one element. *)
Definition assign (mask : bool) (value r : R) : R := if mask then value else r.

(** GreenwoodTripp.py 74-84, one element: the masks, then the assignments in the
    order of the lines (later ones overwrite). *)
Definition s_at (xi1 xi2 xi : R) : R :=
  let m1 := below xi xi1 in
  let m4 := below xi2 xi in
  let m := below xi 1 in
  let m2 := andb m (negb m1) in
  let m3 := andb (negb m) (negb m4) in
  let r := 0 in
  let r := assign m1 (xi ^ 2 / 2) r in
  let r := assign m4 xi r in
  let r := assign m2 (2 / PI * ell_B xi) r in
  assign m3 (2 / PI * xi * ellipe (1 / xi ^ 2)) r.

(** GreenwoodTripp.py 88-103.  [s] is the argument, not the function, inside
    [xinum] (89-94): TypeError as soon as its list is not empty.  The square
    root of a negative number (nan) is left out, see the theorems. *)
Definition xi_at (s1 s2 : R) (s : list R) : res (list R) :=
  let m2 := fun x => andb (negb (below x s1)) (negb (below s2 x)) in
  if existsb m2 s then Exc TypeErr
  else Ret (map (fun x => assign (below s2 x) x (assign (below x s1) (sqrt (2 * x)) 0)) s).
