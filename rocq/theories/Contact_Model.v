(** * The contact calculation as a whole

    The other models leave the minimisation of [contact_mechanics] and of the
    systems open.  Here it is the solver of CCG_Model.v, called the way
    /repo/ContactMechanics/Systems.py lines 572-611 call it, on the half-spaces
    of HalfSpace_Model.v and Free_Model.v.

    Simplifications:
    - serial run: one process owns all points of the computational grid;
    - the topography has no masked points;
    - [optimizer_kwargs] of the pipeline may set [forcetol], [thermotol],
      [mixfac], [mixdecfac] and [minmixsteps]; initial displacements or forces,
      a logger and a callback are not passed;
    - [scipy.optimize.bisect] is an arbitrary function. *)
From Coq Require Import Reals List Arith Bool.
From Verif Require Import Py FFT_Base HalfSpace_Spec HalfSpace_Model Systems_Model Pipeline_Model.
From Verif Require CCG_Model CCG_Real.
Import ListNotations.
Local Open Scope R_scope.

(** ** Points of a grid *)
Definition inside (g : list nat) (p : nat * nat) : bool :=
  andb (Nat.ltb (fst p) (gx g)) (Nat.ltb (snd p) (gy g)).
Definition pt (g : list nat) : Type := { p : nat * nat | inside g p = true }.
Definition px {g} (p : pt g) : nat := fst (proj1_sig p).
Definition py {g} (p : pt g) : nat := snd (proj1_sig p).
(** The values of an array at the points, and the array with given values. *)
Definition read (g : list nat) (f : field) : pt g -> R := fun p => f (px p) (py p).
Definition write {A} (g : list nat) (d : A) (v : pt g -> A) : nat -> nat -> A := fun x y =>
  match bool_dec (inside g (x, y)) true with
  | left H => v (exist _ (x, y) H)
  | right _ => d
  end.
Definition here (g : list nat) (p : nat * nat) : list (pt g) :=
  match bool_dec (inside g p) true with
  | left H => [exist _ p H]
  | right _ => []
  end.
Definition points (g : list nat) : list (pt g) :=
  flat_map (here g) (list_prod (seq 0 (gx g)) (seq 0 (gy g))).

(** ** The call of the solver *)

(** [optimizer_kwargs]; defaults in ConstrainedConjugateGradients.py 52-56. *)
Record options := mkOpt {
  op_forcetol : R; op_thermotol : R; op_mixfac : R; op_mixdec : R; op_minmix : nat;
  op_bisect : (R -> R) -> R -> R -> option R }.

(** An evaluation of the substrate on the computational grid.  It does not
    raise for the half-spaces (Contact_Proofs.v); the value for the other case
    is arbitrary. *)
Definition respond (g : list nat) (ev : arr -> res arr) (f : pt g -> R) : pt g -> R :=
  match ev (mkArr g (write g 0 f)) with
  | Ret u => read g (a_val u)
  | Exc _ => fun _ => 0
  end.

(** [comp_slice], lines 188-190: the part of the grid below the topography. *)
Definition comp_shape (sb : substrate) : list nat :=
  map (fun p => Nat.min (fst p) (snd p)) (combine (sb_grid sb) (sb_sub sb)).
(** Inputs of the loop, lines 134-212, from
    [constrained_conjugate_gradients(substrate, surface, hardness=...,
    external_force=..., offset=..., pentol=..., maxiter=...)]. *)
Definition solver_cfg (o : options) (sb : substrate) (sf : surface) (hardness force : option R)
    (offset pentol : R) : @CCG_Model.cfg R (pt (sb_sub sb)) :=
  CCG_Model.mkCfg [points (sb_sub sb)]
    (fun p => inside (comp_shape sb) (px p, py p))
    (fun _ => false)
    (read (sb_sub sb) (a_val (heights sf)))
    (respond (sb_sub sb) (sb_disp sb)) (respond (sb_sub sb) (sb_force sb))
    (option_map (fun h => CCG_Model.HScalar h) hardness) force offset None None
    pentol (op_forcetol o) (op_thermotol o) (op_mixfac o) (op_mixdec o) (op_minmix o)
    (size (sf_grid sf)) (op_bisect o).

Definition exception (e : CCG_Model.exn) : pyexn :=
  match e with
  | CCG_Model.TypeError => TypeErr
  | CCG_Model.ValueError => ValueErr
  | CCG_Model.UnboundLocalError => NameErr
  | CCG_Model.GenericException => GenericExc
  end.

(** The result object: [x] on the computational grid, [jac] and [plastic] on
    [comp_slice] (lines 469-476). *)
Definition result_object (sb : substrate) (r : @CCG_Model.sresult R (pt (sb_sub sb))) : oresult :=
  mkOres (CCG_Model.x_success r)
    (mkArr (sb_sub sb) (write (sb_sub sb) 0 (CCG_Model.x_x r)))
    (mkArr (comp_shape sb) (write (sb_sub sb) 0 (CCG_Model.x_jac r)))
    (CCG_Model.x_offset r)
    (match CCG_Model.x_plastic r with
     | Some m => write (sb_sub sb) false m
     | None => fun _ _ => false
     end).

(** The minimisation of the pipeline.  [pentol] is always given, so the rms
    height (line 165) and the sum of the heights (line 170) are not used. *)
Definition ccg_solver (o : options) (sb : substrate) (sf : surface) (hardness : option R)
    (a : solver_args) : res oresult :=
  match CCG_Model.solve (CCG_Real.ROps (pt (sb_sub sb)))
          (CCG_Model.mkArgs R (pt (sb_sub sb)) false false (length (sb_grid sb)) (sa_offset a)
             (Some (sa_pentol a)) 0 (mean_nat (sf_grid sf)) (Some (sa_maxiter a)))
          (solver_cfg o sb sf hardness (sa_force a)) 0 (size (sf_grid sf)) with
  | CCG_Model.Ok r => Ret (result_object sb r)
  | CCG_Model.Raise e => Exc (exception e)
  end.
