(** * The command line with the real solver

    HardWall_Model.v leaves the minimisation of the system open.  Here it is the
    solver of CCG_Model.v, called the way HardWall.py 132-133, 455-458 and
    Systems.py 572-611 call it, on the half-spaces of HalfSpace_Model.v and
    Free_Model.v; simplifications as in Contact_Model.v.  In addition [pentol]
    may be missing, and the solver chooses it
    (ConstrainedConjugateGradients.py 161-174): [rms] is the rms height of the
    surface (SurfaceTopography), an arbitrary function. *)
From Coq Require Import Reals List Arith Bool.
From Verif Require Import Py FFT_Base HalfSpace_Model Systems_Model Pipeline_Model HardWall_Model Contact_Model.
From Verif Require CCG_Model CCG_Real.
Import ListNotations.
Local Open Scope R_scope.

Section Solver.
  Variable o : options.
  Variable rms : surface -> R.

  (** The call of the solver. *)
  Definition hw_call (sb : substrate) (sf : surface) (hardness offset force pentol : option R) (maxiter : nat)
    : CCG_Model.result (@CCG_Model.sresult R (pt (sb_sub sb))) :=
    CCG_Model.solve (CCG_Real.ROps (pt (sb_sub sb)))
      (CCG_Model.mkArgs R (pt (sb_sub sb)) false false (length (sb_grid sb)) offset pentol (rms sf)
         (mean_nat (sf_grid sf)) (Some maxiter))
      (solver_cfg o sb sf hardness force) (asum (heights sf)) (size (sf_grid sf)).

  Definition hw_solver (sb : substrate) (sf : surface) (hardness offset force pentol : option R) (maxiter : nat)
    : res oresult :=
    match hw_call sb sf hardness offset force pentol maxiter with
    | CCG_Model.Ok r => Ret (result_object sb r)
    | CCG_Model.Raise e => Exc (exception e)
    end.

  (** [opt.active_set] of the same call; the value after an exception is not
      used. *)
  Definition hw_active (sb : substrate) (hardness pentol : option R) (maxiter : nat) (sf : surface)
      (offset force : option R) : zone :=
    match hw_call sb sf hardness offset force pentol maxiter with
    | CCG_Model.Ok r => write (sb_sub sb) false (CCG_Model.x_active r)
    | CCG_Model.Raise _ => fun _ _ => false
    end.
End Solver.
