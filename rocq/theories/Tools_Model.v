(** * Model of /repo/ContactMechanics/Tools/common.py

    Simplifications: Python floats are reals (no nan, no infinity except where
    the code mentions it); arrays have one or two axes. *)
From Coq Require Import Reals ZArith Lia Lra List Arith Bool String Ascii.
From Coquelicot Require Import Coquelicot.
From Verif Require Import Py FFT_Base HalfSpace_Model Systems_Model.
Import ListNotations.
Local Open Scope R_scope.

(** ** Python values that can be compared: None, numbers, strings, tuples and
    lists (numpy arrays, dictionaries and sets are left out). *)
Inductive pyval :=
| VNone
| VInt (n : Z)
| VFloat (r : R)
| VStr (s : string)
| VTuple (l : list pyval)
| VList (l : list pyval).

Definition num (v : pyval) : option R :=
  match v with VInt n => Some (IZR n) | VFloat r => Some r | _ => None end.

(** [a == b] *)
Fixpoint pyeq (a b : pyval) : bool :=
  let fix eqs (l m : list pyval) : bool :=
    match l, m with
    | [], [] => true
    | x :: l', y :: m' => andb (pyeq x y) (eqs l' m')
    | _, _ => false
    end in
  match a, b with
  | VNone, VNone => true
  | VStr s, VStr t => String.eqb s t
  | VTuple l, VTuple m => eqs l m
  | VList l, VList m => eqs l m
  | _, _ => match num a, num b with
            | Some x, Some y => if Req_EM_T x y then true else false
            | _, _ => false
            end
  end.

(** What [len] and iteration see; None: TypeError. *)
Fixpoint chars (s : string) : list pyval :=
  match s with
  | EmptyString => []
  | String c s' => VStr (String c EmptyString) :: chars s'
  end.
Definition items (v : pyval) : option (list pyval) :=
  match v with VTuple l | VList l => Some l | VStr s => Some (chars s) | _ => None end.

(** [compare_containers], lines 34-53. *)
Definition compare_containers (a b : pyval) : bool :=
  if negb (pyeq a b) then
    match items a, items b with
    | Some l, Some m =>
        if negb (Nat.eqb (List.length l) (List.length m)) then false
        else forallb (fun p => pyeq (fst p) (snd p)) (combine l m)
    | _, _ => false               (* except Exception *)
    end
  else true.

(** ** [evaluate_gradient], lines 56-81, for a float array [x] and a non-zero
    step (an integer array would truncate the steps; not modelled). *)
Definition bump (x : arr) (i : nat) (t : R) : arr :=
  mkArr (a_shape x) (fun p q =>
    a_val x p q + (if Nat.eqb (p * nth 1 (a_shape x) 1 + q)%nat i then t else 0)).
(** Lines 72-79: the first [n] entries. *)
Fixpoint grad_go (fn : arr -> res R) (x : arr) (delta : R) (n : nat) : res (nat -> R) :=
  match n with
  | O => Ret (fun _ => 0)
  | S i =>
      bind (grad_go fn x delta i) (fun g =>
      bind (fn (bump x i (0.5 * delta))) (fun fp =>
      bind (fn (bump x i (- (0.5 * delta)))) (fun fm =>
      Ret (fun k => if Nat.eqb k i then (fp - fm) / delta else g k))))
  end.
Definition evaluate_gradient (fn : arr -> res R) (x : arr) (delta : R) : res arr :=
  bind (grad_go fn x delta (size (a_shape x))) (fun g =>
  Ret (mkArr (a_shape x) (fun p q => g (p * nth 1 (a_shape x) 1 + q)%nat))).

(** ** [mean_err], lines 84-93, for non-empty arrays with at least one axis. *)
Definition mean_err (a b : arr) (rfft : bool) : res R :=
  let stops := map (fun p => Nat.max (fst p) (snd p)) (combine (a_shape a) (a_shape b)) in
  let sl := if rfft then removelast stops ++ [(last stops 0 / 2 + 1)%nat] else stops in
  bind (head_slice sl a) (fun a' =>
  bind (head_slice sl b) (fun b' =>
  if negb (shape_eqb (a_shape a') (a_shape b')) then Exc GenericExc
  else
    bind (binop Rminus a' b') (fun d =>
    Ret (asum (amap Rabs d) / INR (size (a_shape d)))))).

(** ** [np.fft.fftfreq(n, d)]: [arange(0, N)] followed by
    [arange(-(n//2), 0)], times [1.0/(n*d)]. *)
Definition fftfreq (n : nat) (d : R) : list R :=
  let N := ((n - 1) / 2 + 1)%nat in
  map (fun k => IZR k * (1 / (INR n * d)))
    (map (fun i => Z.of_nat i) (seq 0 N)
     ++ map (fun i => (Z.of_nat i - Z.of_nat (n / 2))%Z) (seq 0 (n / 2))).

(** ** [compute_wavevectors], lines 96-109: number of points and sizes are a
    number in one dimension and tuples otherwise. *)
Inductive extent (A : Type) := Scalar (a : A) | Tuple (l : list A).
Arguments Scalar {A} a.
Arguments Tuple {A} l.
Definition wavevector (n : nat) (L : R) : res (list R) :=
  if Nat.eqb n 0 then Exc ZeroDivisionError
  else if Req_EM_T L 0 then Exc ZeroDivisionError
  else Ret (map (fun f => 2 * PI * f) (fftfreq n (L / INR n))).
Fixpoint wavevectors (ns : list nat) (Ls : list R) (dims : nat) {struct dims} : res (list (list R)) :=
  match dims with
  | O => Ret []
  | S d =>
      match ns, Ls with
      | n :: ns', L :: Ls' =>
          bind (wavevector n L) (fun v => bind (wavevectors ns' Ls' d) (fun r => Ret (v :: r)))
      | _, _ => Exc IndexError
      end
  end.
Definition compute_wavevectors (ns : extent nat) (Ls : extent R) (dims : nat)
  : res (list (list R)) :=
  if Nat.eqb dims 1 then
    match ns, Ls with
    | Scalar n, Scalar L => wavevectors [n] [L] 1
    | _, _ => Exc TypeErr
    end
  else
    match ns, Ls with
    | Tuple ns, Tuple Ls => wavevectors ns Ls dims
    | Tuple [], Scalar _ => if Nat.eqb dims 0 then Ret [] else Exc IndexError
    | _, _ => if Nat.eqb dims 0 then Ret [] else Exc TypeErr
    end.

(** ** [fftn], [ifftn], lines 112-139, for [n] x [m] arrays.  [np.fft.ifftn]
    carries the factor [1/(n m)]. *)
Definition np_fftn (n m : nat) (f : spectrum) : spectrum := fftC n m f.
Definition np_ifftn (n m : nat) (f : spectrum) : spectrum := fun x y =>
  Cdiv (ifft2 n m f x y) (RtoC (INR (n * m))).
Definition fftn (n m : nat) (f : spectrum) (integral : R) : spectrum := fun k l =>
  Cmult (RtoC (integral / INR (n * m))) (np_fftn n m f k l).
Definition ifftn (n m : nat) (f : spectrum) (integral : R) : spectrum := fun x y =>
  Cmult (RtoC (INR (n * m) / integral)) (np_ifftn n m f x y).

(** ** [get_q_from_lambda], lines 142-150; None stands for infinity. *)
Definition get_q_from_lambda (lmin lmax : R) : res (R * option R) :=
  let qmax := if Req_EM_T lmin 0 then None else Some (2 * PI / lmin) in
  if Req_EM_T lmax 0 then Exc ZeroDivisionError
  else Ret (2 * PI / lmax, qmax).
