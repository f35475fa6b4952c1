(** * Model of what the contact solver writes to its log

    [/repo/ContactMechanics/Optimization/ConstrainedConjugateGradients.py],
    lines 166-167 and 448-503, on top of [CCG_Model.v] (the iterations) and
    [Logger_Model.v] (the logger).

    Simplifications:
    - areas are numpy integers, which [Logger.st] prints like reals
      (they are [numbers.Real] but not [int]); only [it] is a Python int;
    - an offset that is the Python int 0 is printed like the real number 0;
    - a pressure that is the Python int 0 (no point in tension, no padding) is
      printed like the real number 0;
    - the text of [pentol] is arbitrary;
    - [maxdu] of an empty grid is the word "-inf". *)
From Coq Require Import Reals ZArith List Arith Bool Ascii String.
From Verif Require Import Logger_Model Logger_Spec CCG_Model CCG_Real.
Import ListNotations.
Local Open Scope string_scope.
Local Open Scope list_scope.
Local Open Scope R_scope.

(** [delta_str], and lines 462, 502. *)
Definition status_word (s : CCG_Model.status) : text :=
  match s with Reset => tx "reset" | Sd => tx "sd" | Cg => tx "cg" | Mix => tx "mix" end.
Definition label_word (l : label) : text :=
  match l with
  | LStatus s => status_word s
  | LConverged => tx "CONVERGED"
  | LNotConverged => tx "NOT CONVERGED"
  end.

Section SolverLog.
  Context {P : Type}.
  Variable c : @cfg R P.
  Variable verbose : bool.

  (** [reduction.sum(surf_mask * 1)] *)
  Definition surface_pts : nat := rcount (c_ranks c) (comp c).
  (** [if hardness:], line 451. *)
  Definition hardness_true : bool :=
    match c_hard c with Some (HScalar H) => negb (oeqb (ROps P) H 0) | _ => false end.

  Definition real (x : R) : value := Scal (SReal x).
  Definition int_real (n : nat) : value := real (INR n).

  (** Lines 448-471: [log_headers] and [log_values]. *)
  Definition headers (r : @report R) : list text :=
    map tx ["status"; "it"; "area"; "frac. area"; "cg area"; "total force"; "offset"]
    ++ (if hardness_true then map tx ["plast. area"; "frac.plast. area"] else [])
    ++ (if verbose
        then map tx ["rms pen."; "max. pen."; "max. force"; "max. pad force"; "max. du"; "CG area";
                     "frac. CG area"; "sum(nc_r)"]
             ++ [tx (if is_mix (r_str r) then "mixfac" else "tau")]
        else []).
  Definition values (l : label) (r : @report R) : list value :=
    [Scal (SStr (label_word l)); Scal (SInt (Z.of_nat (r_it r)));
     int_real (r_Acontact r); real (INR (r_Acontact r) / INR surface_pts); int_real (r_Acg r);
     real (r_total r); real (r_off r)]
    ++ (if hardness_true then [int_real (r_Afl r); real (INR (r_Afl r) / INR surface_pts)] else [])
    ++ (if verbose
        then [real (sqrt (r_ms r)); real (r_maxpen r); real (r_maxpres r); real (r_padpres r);
              match r_maxdu r with Some x => real x | None => Scal (SStr (tx "-inf")) end;
              int_real (r_Acg r); real (INR (r_Acg r) / INR surface_pts); int_real (r_nc r);
              real (if is_mix (r_str r) then r_mixfac r else r_tau r)]
        else []).

  (** [logger.st], lines 463, 485-486, 503. *)
  Definition log_request (e : @event R P) : list request :=
    match e with
    | ELog l forced r => [Status (mkCall (headers r) (values l r) forced)]
    | ECallback _ _ _ => []
    end.

  Definition solver_name : text := tx "constrained_conjugate_gradients".
  (** Lines 166-167 and the loop: what the logger is asked to do. *)
  Definition solver_requests (maxiter : nat) (pentol : text) (evs : list (@event R P)) : list request :=
    Message solver_name (tx "maxiter = " ++ str_int (Z.of_nat maxiter))
    :: Message solver_name (tx "pentol = " ++ pentol)
    :: flat_map log_request evs.

  (** The call with a logger: the state of the logger and the result. *)
  Definition logged_run (fmt : text -> Z -> text) (maxiter : nat) (pentol : text)
      (st : Logger_Model.state) : Logger_Model.state * result (@sresult R P) :=
    let (evs, r) := run_trace (ROps P) c maxiter in
    (fst (Logger_Spec.run fmt (solver_requests maxiter pentol evs) st), r).
End SolverLog.
