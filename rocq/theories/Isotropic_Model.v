(** * The isotropic surface Green's function, GreensFunctions/Isotropic.py

    Numbers are real and complex numbers.  A wavevector of zero divides by zero
    in [_greens_function] (infinities, left out).  [np.linalg.inv] is the
    inverse matrix, an exception for singular matrices. *)

From Coq Require Import Reals.
From Coquelicot Require Import Coquelicot.
From Verif Require Import Py GreenwoodTripp_Model.
From Coq Require Import List.
Import ListNotations.
Local Open Scope R_scope.

Definition cmat := list (list C).
Definition at_ (M : cmat) (i j : nat) : C := nth j (nth i M []) (RtoC 0).
Definition mat_of (f : nat -> nat -> C) : cmat :=
  map (fun i => map (fun j => f i j) [0; 1; 2]%nat) [0; 1; 2]%nat.

(** [np.linalg.inv] of a 3x3 matrix: adjugate over determinant. *)
Definition det3 (M : cmat) : C :=
  (at_ M 0 0 * (at_ M 1 1 * at_ M 2 2 - at_ M 1 2 * at_ M 2 1)
   - at_ M 0 1 * (at_ M 1 0 * at_ M 2 2 - at_ M 1 2 * at_ M 2 0)
   + at_ M 0 2 * (at_ M 1 0 * at_ M 2 1 - at_ M 1 1 * at_ M 2 0))%C.
Definition cof3 (M : cmat) (i j : nat) : C :=
  let i1 := Nat.modulo (i + 1) 3 in let i2 := Nat.modulo (i + 2) 3 in
  let j1 := Nat.modulo (j + 1) 3 in let j2 := Nat.modulo (j + 2) 3 in
  (at_ M i1 j1 * at_ M i2 j2 - at_ M i1 j2 * at_ M i2 j1)%C.
Definition inv3 (M : cmat) : res cmat :=
  if Ceq_dec (det3 M) (RtoC 0) then Exc GenericExc
  else Ret (mat_of (fun i j => (cof3 M j i / det3 M)%C)).

(** Isotropic.py 50-63. *)
Definition iso_greens (mu nu qx qy : R) : cmat :=
  let q := sqrt (qx ^ 2 + qy ^ 2) in
  map (map (fun z => (z / RtoC mu)%C))
    [[ RtoC (1 / q - nu * qx ^ 2 / q ^ 3); RtoC (- nu * qx * qy / q ^ 3);
       (Ci * RtoC (1 - 2 * nu) * RtoC qx / RtoC (2 * q ^ 2))%C ];
     [ RtoC (- nu * qx * qy / q ^ 3); RtoC (1 / q - nu * qy ^ 2 / q ^ 3);
       (Ci * RtoC (1 - 2 * nu) * RtoC qy / RtoC (2 * q ^ 2))%C ];
     [ (- Ci * RtoC (1 - 2 * nu) * RtoC qx / RtoC (2 * q ^ 2))%C;
       (- Ci * RtoC (1 - 2 * nu) * RtoC qy / RtoC (2 * q ^ 2))%C;
       RtoC ((1 - nu) / q) ]].

(** Isotropic.py 65-68. *)
Definition iso_stiffness (mu nu qx qy : R) : res cmat :=
  if andb (if Rlt_dec (Rabs qx) (/ 10 ^ 6) then true else false)
          (if Rlt_dec (Rabs qy) (/ 10 ^ 6) then true else false)
  then Ret (mat_of (fun _ _ => RtoC 0))
  else inv3 (iso_greens mu nu qx qy).

(** Isotropic.py 70-86, array arguments: [zip] stops at the shorter one. *)
Definition iso_greens_array (mu nu : R) (qx qy : list R) : list cmat :=
  map2 (iso_greens mu nu) qx qy.
Definition iso_stiffness_array (mu nu : R) (qx qy : list R) : res (list cmat) :=
  seq_res (map2 (iso_stiffness mu nu) qx qy).
