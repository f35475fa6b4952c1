(** * Bounds, methods and keywords of [SystemBase.minimize_proxy], Systems.py 197-338

    [Systems_Model.base_minimize_proxy] is the call with default arguments.  Simplified:
    [method] is a name (not a callable), [logger] and [callback] are left out, the keywords
    for the optimiser are part of the optimiser.  The optimiser has to return [x] and [jac]
    (those of scipy without [jac] end in an AttributeError that is not modelled). *)
From Coq Require Import Reals List Arith Bool String.
From Verif Require Import Py FFT_Base HalfSpace_Model Free_Model Systems_Model.
From Coq Require Import List.
Import ListNotations.
Local Open Scope R_scope.

(** Masked array; a plain array has no masked entry ([None]). *)
Record marr := mkMarr { m_shape : list nat; m_val : nat -> nat -> option R }.
(** Floating point numbers of a bound. *)
Inductive ext := NegInf | Fin (r : R) | PosInf.

(** [np.ma.filled(m, d).ravel()] *)
Definition filled (m : marr) (d : ext) : nat -> ext := fun k =>
  match m_val m (k / nth 1 (m_shape m) 1)%nat (k mod nth 1 (m_shape m) 1)%nat with
  | Some b => Fin b | None => d end.

(** [scipy.optimize.Bounds]: the bounds with their number; [None] is a single number for all
    variables, the default -inf or inf. *)
Record bounds := mkBounds { b_nlow : option nat; b_low : nat -> ext; b_nupp : option nat; b_upp : nat -> ext }.

(** [_reshape_bounds], lines 197-210. *)
Definition reshape_bounds (l u : option marr) : option bounds :=
  match l, u with
  | Some l, Some u => Some (mkBounds (Some (size (m_shape l))) (filled l NegInf) (Some (size (m_shape u))) (filled u PosInf))
  | Some l, None => Some (mkBounds (Some (size (m_shape l))) (filled l NegInf) None (fun _ => PosInf))
  | None, Some u => Some (mkBounds None (fun _ => NegInf) (Some (size (m_shape u))) (filled u PosInf))
  | None, None => None
  end.

(** The argument [lbounds], lines 309-314: nothing, a text or an array. *)
Inductive larg := LNone | LText (t : string) | LArr (m : marr).
Definition lower_of (sb : substrate) (sf : surface) (off : R) (l : larg) : res (option marr) :=
  match l with
  | LNone => Ret None
  | LText t => if String.eqb t "auto" then Ret (Some (mkMarr (sb_sub sb) (lbounds_from_heights sb sf off))) else Exc ValueErr
  | LArr m => Ret (Some m)
  end.

(** Line 319. *)
Definition bounded_minimizers : list string := ["L-BFGS-B"; "TNC"; "SLSQP"]%string.

(** [minimize_proxy], lines 249-338, and [_update_state], lines 224-247.  [procs] is the size
    of the communicator (1 without one); the optimiser gets the initial values and the bounds. *)
Definition minimize_bounded (sb : substrate) (sf : surface) (procs : nat) (off : R) (init : option arr) (method : string)
    (gradient : bool) (l : larg) (u : option marr) (opt : arr -> option bounds -> program) : M oresult :=
  if Nat.ltb 1 procs then lift (Exc ValueErr) else
  let d0 := match init with Some d => d | None => mkArr (sb_sub sb) (fun _ _ => 0) end in
  mbind (lift (shape_minimisation_input sb d0)) (fun x0 =>
  mbind (lift (lower_of sb sf off l)) (fun lm =>
  let bnds := reshape_bounds lm u in
  mbind (exec (objective sb sf off gradient) (primal_hessian_product sb)
      (opt x0 (if existsb (String.eqb method) bounded_minimizers then bnds else None))) (fun r =>
  mbind (upd (fun y => mkState (y_gap y) (y_disp y) (y_energy y) (y_force y) (y_zone y)
     (Some off) (y_gradient y) (y_senergy y) (y_sforce y) (y_sdisp y))) (fun _ =>
  mbind (lift (shape_minimisation_output sb (o_x r))) (fun d =>
  mbind (upd (fun y => mkState (y_gap y) (Some d) (y_energy y) (y_force y) (y_zone y)
     (y_offset y) (y_gradient y) (y_senergy y) (y_sforce y) (y_sdisp y))) (fun _ =>
  mbind (evaluate_sys sb sf d off true gradient) (fun _ =>
  mbind (lift (shape_minimisation_output sb (o_jac r))) (fun j =>
  mret (mkOres (o_success r) d j (o_offset r) (o_plastic r)))))))))).
