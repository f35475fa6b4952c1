(** Vocabulary for the solver theorems: only notions a user of
    [constrained_conjugate_gradients] can see. *)
From Coq Require Import Reals List Bool.
From Verif Require Import CCG_Model CCG_Real.
Import ListNotations.
Local Open Scope R_scope.

Notation rcfg := (@cfg R _).
Notation rresult := (@sresult R _).

(** The call [constrained_conjugate_gradients(...)] with [maxiter = n]. *)
Definition ccg {P} (c : @cfg R P) (n : nat) : result (@sresult R P) :=
  run (ROps P) c n.

(** All grid points of all processes. *)
Definition grid {P} (c : @cfg R P) : list P := concat (c_ranks c).

(** Point [p] carries a height: it is inside the topography and not masked. *)
Definition on_surface {P} (c : @cfg R P) (p : P) : Prop :=
  c_slice c p = true /\ c_masked c p = false.

(** Gap between deformed substrate and rigid surface in a result. *)
Definition gap {P} (c : @cfg R P) (r : @sresult R P) (p : P) : R :=
  x_x r p - c_h c p - x_offset r.

(** Total normal force of a result. *)
Definition total {P} (c : @cfg R P) (r : @sresult R P) : R :=
  lsum (filter (fun p => c_slice c p && negb (c_masked c p)) (grid c)) (x_jac r).

(** Number of points of the returned active set. *)
Definition n_active {P} (c : @cfg R P) (r : @sresult R P) : nat :=
  length (filter (x_active r) (grid c)).

Definition elastic {P} (c : @cfg R P) : Prop := c_hard c = None.
Definition offset_control {P} (c : @cfg R P) : Prop := c_ext c = None.

Definition hardness_nonneg {P} (c : @cfg R P) : Prop :=
  match c_hard c with
  | None => True
  | Some (HScalar H) => 0 <= H
  | Some (HArray H) => forall p, 0 <= H p
  end.

(** Linear response. *)
Definition linear {P} (d : (P -> R) -> P -> R) : Prop :=
  (forall f g p, d (fun q => f q + g q) p = d f p + d g p) /\
  (forall k f p, d (fun q => k * f q) p = k * d f p).
(** Reciprocity and positive definiteness of the compliance [-d]. *)
Definition self_adjoint {P} (l : list P) (d : (P -> R) -> P -> R) : Prop :=
  forall f g, lsum l (fun p => f p * d g p) = lsum l (fun p => g p * d f p).
Definition compliant {P} (l : list P) (d : (P -> R) -> P -> R) : Prop :=
  forall f, (exists p, In p l /\ f p <> 0) -> 0 < - lsum l (fun p => f p * d f p).
Definition weakly_compliant {P} (l : list P) (d : (P -> R) -> P -> R) : Prop :=
  forall f, 0 <= - lsum l (fun p => f p * d f p).

(** Exact solution [q] (pressures, zero off the surface) of the elastic contact
    problem: no penetration, no adhesion, complementarity. *)
Definition exact_solution {P} (c : @cfg R P) (off : R) (q : P -> R) : Prop :=
  let u := c_disp c (fun p => - q p) in
  (forall p, In p (grid c) -> ~ on_surface c p -> q p = 0) /\
  (forall p, In p (grid c) -> on_surface c p ->
     0 <= q p /\ 0 <= u p - c_h c p - off /\ q p * (u p - c_h c p - off) = 0).

(** ** Observable history of a run *)

(** The callback invocations: iteration number and status. *)
Definition callbacks {P} (evs : list (@event R P)) : list (nat * status) :=
  flat_map (fun e => match e with
                     | ECallback it _ r => [(it, r_str r)]
                     | _ => []
                     end) evs.

(** The status of every iteration of the run in order (each iteration is
    reported once: by the callback or, for the converged one, by the log). *)
Definition statuses {P} (evs : list (@event R P)) : list status :=
  flat_map (fun e => match e with
                     | ECallback _ _ r => [r_str r]
                     | ELog LConverged _ r => [r_str r]
                     | _ => []
                     end) evs.

Definition count_mix (l : list status) : nat := length (filter is_mix l).

(** Forced log lines. *)
Definition forced_logs {P} (evs : list (@event R P)) : list label :=
  flat_map (fun e => match e with ELog l true _ => [l] | _ => [] end) evs.

(** The force fields handed to the callback. *)
Definition callback_forces {P} (evs : list (@event R P)) : list (P -> R) :=
  flat_map (fun e => match e with ECallback _ f _ => [f] | _ => [] end) evs.

(** Every point of the index type is owned by some process. *)
Definition covers {P} (c : @cfg R P) : Prop := forall p, In p (grid c).

(** All points of the result where the solver reports a positive force. *)
Definition tolerances_positive {P} (c : @cfg R P) : Prop :=
  0 < c_pentol c /\ 0 < c_forcetol c /\ 0 < c_thermotol c.

(** Iterates: state of the solver after [k] iterations (without looking at the
    convergence flag). *)
Fixpoint after {P} (c : @cfg R P) (k : nat) : result (@state R P) :=
  match k with
  | O => Ok (init_state (ROps P) c)
  | S k => match after c k with
           | Raise e => Raise e
           | Ok s => match iter (ROps P) c s with
                     | Raise e => Raise e
                     | Ok fu => Ok (fu_state fu)
                     end
           end
  end.

(** Complementary energy of a force field at fixed offset: elastic energy plus
    the work against the rigid surface (compressive forces are negative). *)
Definition complementary_energy {P} (c : @cfg R P) (off : R) (f : P -> R) : R :=
  - / 2 * lsum (grid c) (fun p => f p * c_disp c f p)
  + lsum (filter (fun p => c_slice c p && negb (c_masked c p)) (grid c))
         (fun p => f p * (c_h c p + off)).
