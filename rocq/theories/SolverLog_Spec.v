(** * Vocabulary of the theorems about the log of the solver *)
From Coq Require Import Reals ZArith List Arith Bool Ascii String.
From Verif Require Import Py Logger_Model Logger_Spec CCG_Model CCG_Real CCG_Spec SolverLog_Model.
From Coq Require Import List.
Import ListNotations.
Local Open Scope string_scope.
Local Open Scope list_scope.
Local Open Scope R_scope.

(** The status calls among the requests. *)
Definition status_calls (rs : list request) : list call :=
  flat_map (fun q => match q with Status k => [k] | _ => [] end) rs.

(** What a call puts under a header. *)
Fixpoint under (name : text) (hdr : list text) (vals : list value) : option value :=
  match hdr, vals with
  | h :: hdr', v :: vals' => if text_eqb h name then Some v else under name hdr' vals'
  | _, _ => None
  end.
Definition column (name : string) (k : call) : option value := under (tx name) (c_hdr k) (c_vals k).

(** The words for the kinds of step. *)
Definition kind_word (s : CCG_Model.status) : string :=
  match s with Reset => "reset" | Sd => "sd" | Cg => "cg" | Mix => "mix" end.

Section Observed.
  Context {P : Type}.
  Variable c : @cfg R P.

  (** The points that carry a height. *)
  Definition surface_list : list P :=
    filter (fun p => c_slice c p && negb (c_masked c p)) (grid c).
  Definition count (Q : P -> Prop) (dec : forall p, {Q p} + {~ Q p}) : nat :=
    List.length (filter (fun p => if dec p then true else false) surface_list).
  (** Points under compression. *)
  Definition pressed (f : P -> R) : nat := count (fun p => f p < 0) (fun p => Rlt_dec (f p) 0).
  (** Points under compression below the hardness. *)
  Definition yielding_not (H : R) (f : P -> R) : nat :=
    count (fun p => f p < 0 /\ - H < f p)
          (fun p => match Rlt_dec (f p) 0, Rlt_dec (- H) (f p) with
                    | left a, left b => left (conj a b)
                    | right a, _ => right (fun x => a (proj1 x))
                    | _, right b => right (fun x => b (proj2 x))
                    end).
  (** Points at the hardness. *)
  Definition at_hardness (H : R) (f : P -> R) : nat := count (fun p => f p = - H) (fun p => Req_EM_T (f p) (- H)).
  Definition load (f : P -> R) : R := lsum surface_list (fun p => - f p).

  (** The forces after iteration [i + 1]: what the callback received or, after
      the converged iteration, what is returned. *)
  Definition force_after (evs : list (@event R P)) (r : @sresult R P) (i : nat) : P -> R :=
    nth i (callback_forces evs) (fun p => - x_jac r p).

  (** The forces before the first iteration: those given, or those that hold the
      given (or zero) displacements pushed out of the rigid surface. *)
  Definition start_force : P -> R :=
    match c_f0 c with
    | Some f => f
    | None => c_force c (fun p =>
        let u := match c_u0 c with Some u => u p | None => 0 end in
        if c_slice c p && negb (c_masked c p) then Rmax u (c_h c p + c_offset c) else u)
    end.
  (** The forces before iteration [i + 1]. *)
  Definition force_before (evs : list (@event R P)) (r : @sresult R P) (i : nat) : P -> R :=
    match i with O => start_force | S j => force_after evs r j end.
End Observed.

(** A log request must be printed for iteration [i] of [n]. *)
Definition iteration_due (oe : Z) (n i : nat) : bool :=
  (Z.of_nat i mod oe =? 0)%Z || Nat.eqb i n.
