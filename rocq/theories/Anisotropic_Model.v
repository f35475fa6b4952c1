(** * The anisotropic surface Green's function, GreensFunctions/Anisotropic.py

    Numbers are real and complex numbers, matrices are functions of the indices.
    [np.linalg.solve], [np.roots] and scipy's [null_space] are arbitrary
    functions; the theorems say what they need of them.  [np.linalg.inv] is
    [solve] with the identity.  Array arguments are lists of equal length. *)

From Coq Require Import Reals ZArith.
From Coquelicot Require Import Coquelicot.
From Verif Require Import Py GreenwoodTripp_Model FFT_Base.
From Coq Require Import List.
Import ListNotations.
Local Open Scope R_scope.

Definition rmat := nat -> nat -> R.
Definition cmx := nat -> nat -> C.

Definition sum3 (f : nat -> R) : R := f 0%nat + f 1%nat + f 2%nat.
Definition csum3 (f : nat -> C) : C := (f 0%nat + f 1%nat + f 2%nat)%C.

(** ** Elastic constants *)

(** Anisotropic.py 83-89: the Voigt index of a pair. *)
Definition voigt (i j : nat) : nat := if Nat.eqb i j then i else (6 - i - j)%nat.
(** Anisotropic.py 93-100. *)
Definition tensor_ij (v : nat) : nat * nat :=
  match v with
  | 0 => (0, 0) | 1 => (1, 1) | 2 => (2, 2) | 3 => (1, 2) | 4 => (0, 2) | _ => (0, 1)
  end%nat.

(** Anisotropic.py 62-67. *)
Definition c_init (C11 C12 C44 : R) : rmat := fun a b =>
  if andb (Nat.ltb a 3) (Nat.ltb b 3) then (if Nat.eqb a b then C11 else C12)
  else if Nat.eqb a b then C44 else 0.
(** Anisotropic.py 83-90. *)
Definition elasticity_tensor (Cm : rmat) (i j k l : nat) : R := Cm (voigt i j) (voigt k l).
(** Anisotropic.py 77-79, [np.einsum('ig,jh,ghmn,km,ln', R, R, C, R, R)]: the
    indices that occur once, in alphabetical order, are those of the result. *)
Definition einsum_rot (Rm : rmat) (T : nat -> nat -> nat -> nat -> R) (i j k l : nat) : R :=
  sum3 (fun g => sum3 (fun h => sum3 (fun m => sum3 (fun n =>
    Rm i g * Rm j h * T g h m n * Rm k m * Rm l n)))).
(** Anisotropic.py 92-103. *)
Definition voigt_from_tensor (T : nat -> nat -> nat -> nat -> R) (a b : nat) : R :=
  let (i, j) := tensor_ij a in let (k, l) := tensor_ij b in T i j k l.

(** Storing into the array of the elastic constants: this is an array of
    integers when the three constants are, and truncates. *)
Definition trunc (x : R) : R := if Rle_dec 0 x then IZR (Int_part x) else - IZR (Int_part (- x)).
Definition stored (ints : bool) (x : R) : R := if ints then trunc x else x.

Definition rdet3 (Rm : rmat) : R :=
  Rm 0%nat 0%nat * (Rm 1%nat 1%nat * Rm 2%nat 2%nat - Rm 1%nat 2%nat * Rm 2%nat 1%nat)
  - Rm 0%nat 1%nat * (Rm 1%nat 0%nat * Rm 2%nat 2%nat - Rm 1%nat 2%nat * Rm 2%nat 0%nat)
  + Rm 0%nat 2%nat * (Rm 1%nat 0%nat * Rm 2%nat 1%nat - Rm 1%nat 1%nat * Rm 2%nat 0%nat).
Definition cdet3 (M : cmx) : C :=
  (M 0%nat 0%nat * (M 1%nat 1%nat * M 2%nat 2%nat - M 1%nat 2%nat * M 2%nat 1%nat)
  - M 0%nat 1%nat * (M 1%nat 0%nat * M 2%nat 2%nat - M 1%nat 2%nat * M 2%nat 0%nat)
  + M 0%nat 2%nat * (M 1%nat 0%nat * M 2%nat 1%nat - M 1%nat 1%nat * M 2%nat 0%nat))%C.

(** Anisotropic.py 35-81.  [np.isclose]: relative tolerance 1e-5, absolute 1e-8.
    The loop at the end reads the tensor only, so the order does not matter. *)
Definition aniso_new (ints : bool) (C11 C12 C44 : R) (Rm : rmat) : res rmat :=
  if Rle_dec (Rabs (rdet3 Rm - 1)) (/ 10 ^ 8 + / 10 ^ 5 * Rabs 1) then
    let T := einsum_rot Rm (elasticity_tensor (c_init C11 C12 C44)) in
    Ret (fun a b => stored ints (voigt_from_tensor T a b))
  else Exc ValueErr.

(** ** Modes *)

(** Anisotropic.py 105-123. *)
Definition qvec (qx qy qz : C) (k : nat) : C := match k with 0%nat => qx | 1%nat => qy | _ => qz end.
Definition bulkop (Cm : rmat) (qx qy qz : C) : cmx := fun i l =>
  csum3 (fun j => csum3 (fun k =>
    (- RtoC (elasticity_tensor Cm i j k l) * qvec qx qy qz j * qvec qx qy qz k)%C)).

(** [np.sqrt] of a complex number: the root with a real part that is not
    negative. *)
Definition csqrt (z : C) : C :=
  (sqrt ((Cmod z + fst z) / 2), (if Rlt_dec (snd z) 0 then -1 else 1) * sqrt ((Cmod z - fst z) / 2)).
Definition cexp (z : C) : C := (exp (fst z) * cos (snd z), exp (fst z) * sin (snd z)).

Section Modes.
  (** [solve n m A B]: [A] is n x n, [B] is n x m. *)
  Variable solve : nat -> nat -> cmx -> cmx -> res cmx.
  Variable roots : list C -> list C.
  Variable null_space : cmx -> list (nat -> C).
  Variable Cm : rmat.

  (** Anisotropic.py 134-144: the matrix of the four sampling points 0..3. *)
  Definition sample_A : cmx := fun a b =>
    let x := INR a in RtoC (match b with 0%nat => x ^ 6 | 1%nat => x ^ 4 | 2%nat => x ^ 2 | _ => 1 end).
  Definition sample_b (qx qy : R) : cmx := fun a _ =>
    cdet3 (bulkop Cm (RtoC qx) (RtoC qy) (Ci * RtoC (INR a))%C).
  (** Anisotropic.py 125-150. *)
  Definition find_eigenvalues (qx qy : R) : res (list C) :=
    bind (solve 4 1 sample_A (sample_b qx qy)) (fun p =>
      Ret (map csqrt (roots [p 0%nat 0%nat; p 1%nat 0%nat; p 2%nat 0%nat; p 3%nat 0%nat]))).

  (** Anisotropic.py 152-163. *)
  Definition find_eigenvector (qx qy : R) (qz : C) : res (nat -> C) :=
    match null_space (bulkop Cm (RtoC qx) (RtoC qy) qz) with
    | [v] => Ret v
    | _ => Exc RuntimeErr
    end.
  Definition find_eigenvectors (qx qy : R) (qz : list C) : res (list (nat -> C)) :=
    seq_res (map (find_eigenvector qx qy) qz).

  Definition mode_qz (qz : list C) (a : nat) : C := nth a qz (RtoC 0).
  Definition mode_eta (eta : list (nat -> C)) (a : nat) : nat -> C := nth a eta (fun _ => RtoC 0).

  (** Anisotropic.py 165-173, as called (without [z]). *)
  Definition make_U (eta : list (nat -> C)) : cmx := fun k a => mode_eta eta a k.
  (** Anisotropic.py 175-187.  With no mode at all the code goes on with empty
      matrices; here this is an IndexError as for one or two modes. *)
  Definition make_F (qx qy : R) (qz : list C) (eta : list (nat -> C)) (thickness : option R) : res cmx :=
    if Nat.ltb (length qz) 3 then Exc IndexError
    else if andb (Nat.ltb 3 (length qz)) (match thickness with None => true | _ => false end) then Exc TypeErr
    else if andb (Nat.ltb 3 (length qz)) (Nat.ltb (length qz) 6) then Exc IndexError
    else Ret (fun i a =>
      if Nat.ltb i 3 then
        csum3 (fun k => csum3 (fun l =>
          (Ci * RtoC (elasticity_tensor Cm i 2 k l) * qvec (RtoC qx) (RtoC qy) (mode_qz qz a) k * mode_eta eta a l)%C))
      else if Nat.ltb i 6 then
        (cexp (- Ci * mode_qz qz a * RtoC (match thickness with Some h => h | None => 0 end))%C
         * mode_eta eta a (i - 3)%nat)%C
      else RtoC 0).

  (** Anisotropic.py 189-199. *)
  Definition mode_list (thickness : option R) (q0 : list C) : list C :=
    match thickness with
    | None => map (fun z => - Ci * z)%C q0
    | Some h =>
        if Rgt_dec (fold_right Rmax (fst (RtoC h * hd (RtoC 0) q0)%C) (map (fun z => fst (RtoC h * z)%C) q0)) 100
        then map (fun z => - Ci * z)%C q0
        else map (fun z => - Ci * z)%C q0 ++ map (fun z => Ci * z)%C q0
    end.
  Definition make_U_and_F (qx qy : R) (thickness : option R) : res (nat * cmx * cmx) :=
    bind (find_eigenvalues qx qy) (fun q0 =>
      let qz := mode_list thickness q0 in
      bind (find_eigenvectors qx qy qz) (fun eta =>
        bind (make_F qx qy qz eta thickness) (fun F => Ret (length qz, make_U eta, F)))).

  Definition transpose (M : cmx) : cmx := fun i j => M j i.
  Definition eye : cmx := fun i j => if Nat.eqb i j then RtoC 1 else RtoC 0.
  Definition inv (M : cmx) : res cmx := solve 3 3 M eye.

  (** Anisotropic.py 201-207. *)
  Variable self_thickness : option R.
  Definition gamma_stiffness : res cmx :=
    match self_thickness with
    | None => Exc TypeErr
    | Some h => Ret (fun i j =>
        RtoC ((match i, j with
               | 0, 0 => Cm 4 4 | 0, 1 => Cm 3 4 | 0, _ => Cm 2 4
               | 1, 0 => Cm 3 4 | 1, 1 => Cm 3 3 | 1, _ => Cm 2 3
               | _, 0 => Cm 2 4 | _, 1 => Cm 2 3 | _, _ => Cm 2 2
               end)%nat / h))
    end.

  Definition below (x tol : R) : bool := if Rlt_dec (Rabs x) tol then true else false.
  (** Anisotropic.py 209-215.  [zero_tol] is 1e-6. *)
  Definition tol6 : R := / 10 ^ 6.
  Definition greens_function1 (qx qy : R) (thickness : option R) : res cmx :=
    if andb (match thickness with Some _ => true | None => false end) (andb (below qx tol6) (below qy tol6))
    then bind gamma_stiffness inv
    else bind (make_U_and_F qx qy thickness) (fun nUF =>
           let '(n, U, F) := nUF in solve n 3 (transpose F) (transpose U)).
  (** Anisotropic.py 217-228. *)
  Definition stiffness1 (qx qy : R) (thickness : option R) : res cmx :=
    if andb (below qx tol6) (below qy tol6) then
      match thickness with
      | None => Ret (fun _ _ => RtoC 0)
      | Some _ => gamma_stiffness
      end
    else match thickness with
      | None => bind (make_U_and_F qx qy thickness) (fun nUF =>
                  let '(n, U, F) := nUF in solve 3 3 (transpose U) (transpose F))
      | Some _ => bind (greens_function1 qx qy thickness) inv
      end.

  (** Anisotropic.py 230-265.  Scalar wavevectors: the item assignment of line
      234 resp. 253 to a numpy scalar is a TypeError, before the test for
      scalars. *)
  Inductive qarg := Scal (x : R) | Arr (l : list R).
  Definition abs_q (x y : R) : R :=
    let a := sqrt (x ^ 2 + y ^ 2) in if Req_EM_T a 0 then 1 else a.
  Definition scaled_thickness (a : R) : option R :=
    match self_thickness with None => None | Some h => Some (h * a) end.
  Definition greens_function (qx qy : qarg) : res (list cmx) :=
    match qx, qy with
    | Arr lx, Arr ly =>
        if negb (Nat.eqb (length lx) (length ly)) then Exc ValueErr
        else seq_res (map2 (fun x y =>
          let a := abs_q x y in
          bind (greens_function1 (x / a) (y / a) (scaled_thickness a)) (fun M =>
            Ret (fun i j => (M i j / RtoC a)%C))) lx ly)
    | _, _ => Exc TypeErr
    end.
  Definition stiffness (qx qy : qarg) : res (list cmx) :=
    match qx, qy with
    | Arr lx, Arr ly =>
        if negb (Nat.eqb (length lx) (length ly)) then Exc ValueErr
        else seq_res (map2 (fun x y =>
          let a := abs_q x y in
          bind (stiffness1 (x / a) (y / a) (scaled_thickness a)) (fun M =>
            Ret (fun i j => (M i j * RtoC a)%C))) lx ly)
    | _, _ => Exc TypeErr
    end.
End Modes.
