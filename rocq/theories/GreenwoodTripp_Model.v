(** * The Greenwood-Tripp solution of ReferenceSolutions/GreenwoodTripp.py

    All numbers are real numbers; arrays are lists of floats; the parameters
    [xi1], [xi2], [s1], [s2] have their default values.  scipy's functions:
    [ellipe] and [ellipk] are the complete elliptic integrals of the parameter
    [m]; [interp1d] is linear interpolation and refuses positions outside its
    range; [quad] (integration up to infinity) and [simpson] are arbitrary
    functions, the theorems say what they need of them.  [n >= 2] grid points
    (numpy and scipy treat 0 and 1 points specially; left out). *)

From Coq Require Import Reals ZArith.
From Coquelicot Require Import Coquelicot.
From Verif Require Import Py Hertz_Model.
From Coq Require Import List.
Import ListNotations.
Local Open Scope R_scope.

Definition ellipe (m : R) : R := RInt (fun t => sqrt (1 - m * sin t ^ 2)) 0 (PI / 2).
Definition ellipk (m : R) : R := RInt (fun t => / sqrt (1 - m * sin t ^ 2)) 0 (PI / 2).

(** GreenwoodTripp.py 57-84, one element: [B] 71-72, the four masks 74-78, the
    assignments 80-83.  The masks exclude each other when [xi1 <= 1 <= xi2]. *)
Definition ell_B (x : R) : R := ellipe (x ^ 2) + (x ^ 2 - 1) * ellipk (x ^ 2).
Definition s1e5 : R := / 10 ^ 5.
Definition s_fun (xi : R) : R :=
  if Rlt_dec xi s1e5 then xi ^ 2 / 2
  else if Rgt_dec xi (10 ^ 5) then xi
  else if Rlt_dec xi 1 then 2 / PI * ell_B xi
  else 2 / PI * xi * ellipe (1 / xi ^ 2).

(** GreenwoodTripp.py 88-103.  The argument [s] hides the function [s], so
    [xinum] (89-94) calls an array: TypeError as soon as one element is
    between the two limits.  [brentq] evaluates its function at least once. *)
Definition xi_fun (s : list R) : res (list R) :=
  if existsb (fun x => andb (negb (if Rlt_dec x s1e5 then true else false))
                            (negb (if Rgt_dec x (10 ^ 5) then true else false))) s
  then Exc TypeErr
  else Ret (map (fun x => if Rlt_dec x s1e5 then sqrt (2 * x) else x) s).

(** [np.linspace(a, b, n)] for [n >= 2]. *)
Definition linspace (a b : R) (n : nat) : list R :=
  map (fun j => a + INR j * ((b - a) / INR (n - 1))) (seq 0 n).

(** [interp1d(xs, ys)(x)], kind 'linear': the first segment whose right end is
    not below [x]; outside of the data a ValueError. *)
Fixpoint interp_seg (xs ys : list R) (x : R) : R :=
  match xs, ys with
  | x0 :: ((x1 :: xs2) as xs'), y0 :: ((y1 :: _) as ys') =>
      match xs2 with
      | [] => (y1 - y0) / (x1 - x0) * (x - x0) + y0
      | _ => if Rle_dec x x1 then (y1 - y0) / (x1 - x0) * (x - x0) + y0 else interp_seg xs' ys' x
      end
  | _, _ => 0
  end.
Definition interp1d (xs ys : list R) (x : R) : res R :=
  if Rlt_dec x (nth 0 xs 0) then Exc ValueErr
  else if Rgt_dec x (nth (length xs - 1) xs 0) then Exc ValueErr
  else Ret (interp_seg xs ys x).

Fixpoint seq_res {A} (l : list (res A)) : res (list A) :=
  match l with
  | [] => Ret []
  | m :: r => bind m (fun a => bind (seq_res r) (fun q => Ret (a :: q)))
  end.
Fixpoint map2 {A B D} (f : A -> B -> D) (l : list A) (m : list B) : list D :=
  match l, m with
  | a :: l', b :: m' => f a b :: map2 f l' m'
  | _, _ => []
  end.

(** The largest element of a list of absolute values that is not empty. *)
Definition max_abs_diff (p q : list R) : R := fold_right Rmax 0 (map2 (fun a b => Rabs (a - b)) p q).

Section GT.
  (** [quad f h]: scipy's value for the integral of [f] from [h] to infinity. *)
  Variable quad : (R -> R) -> R -> R.
  (** [simpson y x]. *)
  Variable simpson : list R -> list R -> R.
  Variables d mu rhomax eps tol mix : R.
  Variable n : nat.
  Variable maxiter : Z.

  (** GreenwoodTripp.py 39-53 with the default [phi] and [n = 3/2]. *)
  Definition phi (s : R) : R := exp (- s ^ 2 / 2) / fpow (2 * PI) (1 / 2).
  Definition Fn (h : R) : R := quad (fun s => fpow (s - h) (3 / 2) * phi s) h.

  (** Line 142. *)
  Definition rho : list R := linspace 0 rhomax n.

  Record gt_state := mkGT { g_p : list R; g_pold : list R; g_w : list R; g_w0 : R }.

  (** Lines 143-146. *)
  Definition gt_init : gt_state :=
    mkGT (map (fun _ => 0) rho) (map (fun _ => 1) rho) (map (fun _ => 0) rho) 0.

  (** [mu * Fn(d + rho**2 + w - w0, 3 / 2)]. *)
  Definition pressure_of (w : list R) (w0 : R) : list R :=
    map2 (fun r wi => mu * Fn (d + r ^ 2 + wi - w0)) rho w.

  (** Lines 155-163: the displacements for the pressures [p]. *)
  Definition disp_at (p : list R) (w0 : R) (i : nat) (r : R) : res R :=
    if Nat.eqb i 0 then Ret w0
    else
      let xi := linspace 0 ((rhomax - eps) / r) n in
      bind (seq_res (map (fun t => interp1d rho p (r * t)) xi)) (fun ys =>
        Ret (simpson (map (fun y => r * y) ys) (map s_fun xi))).
  Definition displ (p : list R) : res (list R * R) :=
    let w0 := simpson p rho in
    bind (seq_res (map (fun i => disp_at p w0 i (nth i rho 0)) (seq 0 n))) (fun w => Ret (w, w0)).

  (** Lines 153-164, one pass of the loop. *)
  Definition gt_step (st : gt_state) : res gt_state :=
    let p := map2 (fun a b => mix * a + (1 - mix) * b) (pressure_of (g_w st) (g_w0 st)) (g_p st) in
    bind (displ p) (fun ww => Ret (mkGT p (g_p st) (fst ww) (snd ww))).

  (** Lines 148-164; [left] passes are still allowed.  The test of line 149
      is [it > maxiter], so [maxiter + 1] passes are made before it fires. *)
  Fixpoint gt_loop (left : nat) (st : gt_state) : res gt_state :=
    if Rgt_dec (max_abs_diff (g_p st) (g_pold st)) tol then
      match left with
      | O => Exc RuntimeErr
      | S k => bind (gt_step st) (gt_loop k)
      end
    else Ret st.

  (** GreenwoodTripp.py 106-166. *)
  Definition greenwood_tripp : res (list R * list R * list R) :=
    bind (gt_loop (Z.to_nat (maxiter + 1)) gt_init) (fun st =>
      Ret (map (fun wi => wi - g_w0 st) (g_w st), pressure_of (g_w st) (g_w0 st), rho)).
End GT.
