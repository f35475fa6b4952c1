(** * The cone solution of ReferenceSolutions/Cone.py

    All numbers are real numbers, [pi] is [PI].  Arrays are lists of floats
    (the number of dimensions does not matter for these functions).  Infinite
    and not-a-number results are left out: the theorems exclude the radius 0
    of [pressure] ([arccosh inf]) and half angles outside (0, pi/2).  The
    script part of the file (lines 150-277) is not modelled. *)

From Coq Require Import Reals List.
From Verif Require Import Py.
Import ListNotations.
Local Open Scope R_scope.

(** [np.arccosh(x)] for [x >= 1]. *)
Definition arccosh (x : R) : R := ln (x + sqrt (x ^ 2 - 1)).

(** [np.max] of a list that is not empty; [first] is its first element. *)
Definition lmax (first : R) (l : list R) : R := fold_left Rmax l first.

(** Cone.py 36-57. *)
Definition load_and_mean_pressure (alpha : R) : R * R :=
  let beta := PI / 2 - alpha in
  let ratio := tan beta / 2 in
  (ratio, ratio).

(** Cone.py 60-81. *)
Definition contact_radius_and_area (alpha : R) : R * R :=
  let beta := PI / 2 - alpha in
  let ratio_contact_radius := 2 / (PI * tan beta) in
  let ratio_area := PI * ratio_contact_radius in
  (ratio_contact_radius, ratio_area).

(** Cone.py 84-120.  [R_scale_0] 104: [np.max] of an empty selection raises a
    ValueError.  The later assignments (line 110 and 112-117) overwrite the
    earlier ones where the masks overlap. *)
Definition deformation (penetration : list R) (alpha : R) : res (list R) :=
  let beta := PI / 2 - alpha in
  let rc := 2 / (PI * tan beta) in
  match filter (fun r => if Rle_dec r rc then true else false) penetration with
  | [] => Exc ValueErr
  | first :: rest =>
      let mx := lmax first rest in
      Ret (map (fun r =>
        let v0 := if Rle_dec r rc then (mx - r) * tan beta + (1 - 2 / PI) else 0 in
        let v1 := if Req_EM_T r rc then 1 - 2 / PI else v0 in
        if Rge_dec r rc then 2 * (asin (rc / r) - r / rc + sqrt ((r / rc) ^ 2 - 1)) / PI else v1)
        penetration)
  end.

(** Cone.py 123-147, one element. *)
Definition pressure1 (alpha r : R) : R :=
  let beta := PI / 2 - alpha in
  let rc := 2 / (PI * tan beta) in
  if Rle_dec r rc then arccosh (rc / r) else 0.
