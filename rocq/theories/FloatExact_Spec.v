(** * Vocabulary: the two models of the contact solver compared

    Exact real numbers with one undefined value, as an arithmetic for
    Float_Model.v. *)
From Coq Require Import Reals List Bool.
From Verif Require Import CCG_Model CCG_Real Float_Model.
Import ListNotations.
Local Open Scope R_scope.

(** [None] is the undefined number: it spreads, and no comparison with it
    holds. *)
Definition xop2 (op : R -> R -> R) (a b : option R) : option R :=
  match a, b with Some x, Some y => Some (op x y) | _, _ => None end.
Definition xdiv (a b : option R) : option R :=
  match a, b with
  | Some x, Some y => if Req_EM_T y 0 then None else Some (x / y)
  | _, _ => None
  end.
Definition xtest (t : R -> R -> bool) (a b : option R) : bool :=
  match a, b with Some x, Some y => t x y | _, _ => false end.
Definition Rleb (x y : R) : bool := if Rle_dec x y then true else false.
Fixpoint xfold (op : R -> R -> R) (l : list (option R)) : option R :=
  match l with [] => None | [a] => a | a :: l' => xop2 op a (xfold op l') end.

Definition XArith : Arith (option R) :=
  mkArith (option R) (Some 0) (Some 1) (Some (1 / 100)) (xop2 Rplus) (xop2 Rminus) (xop2 Rmult) xdiv
    (option_map Ropp) (option_map Rabs) (option_map sqrt) (xtest Rltb) (xtest Rleb) (xtest Reqb)
    (fun n => Some (INR n)) (fold_right (xop2 Rplus) (Some 0)) (xfold Rmax) (xfold Rmin).

(** Numbers that are all defined. *)
Definition defined {P} (f : P -> R) : P -> option R := fun p => Some (f p).

(** [k] is the problem [c], on one process: the same grid, numbers, substrate
    and root finder; a hardness is one number. *)
Record same_problem {P} (c : @cfg R P) (k : @fcfg (option R) P) : Prop := mkSame {
  sp_ranks : c_ranks c = [k_pts k];
  sp_slice : k_slice k = c_slice c;
  sp_masked : k_masked k = c_masked c;
  sp_h : k_h k = defined (c_h c);
  sp_disp : forall f, k_disp k (defined f) = defined (c_disp c f);
  sp_force : forall u, k_force k (defined u) = defined (c_force c u);
  sp_hard : (c_hard c = None /\ k_hard k = None) \/ exists H, c_hard c = Some (HScalar H) /\ k_hard k = Some (Some H);
  sp_ext : k_ext k = option_map Some (c_ext c);
  sp_offset : k_offset k = Some (c_offset c);
  sp_u0 : k_u0 k = option_map defined (c_u0 c);
  sp_f0 : k_f0 k = option_map defined (c_f0 c);
  sp_pentol : k_pentol k = Some (c_pentol c);
  sp_forcetol : k_forcetol k = Some (c_forcetol c);
  sp_thermotol : k_thermotol k = Some (c_thermotol c);
  sp_mixfac : k_mixfac k = Some (c_mixfac c);
  sp_mixdec : k_mixdec k = Some (c_mixdec c);
  sp_minmix : k_minmix k = c_minmix c;
  sp_nsurf : k_nsurf k = c_nsurf c;
  sp_bisect : forall phi psi a b, (forall x, phi (Some x) = Some (psi x)) ->
    k_bisect k phi (Some a) (Some b) = option_map Some (c_bisect c psi a b) }.

(** The status words of the two models. *)
Definition same_status (s : status) : fstatus :=
  match s with Reset => FReset | Sd => FSd | Cg => FCg | Mix => FMix end.
(** The result object [r] in the other model. *)
Definition same_result {P} (r : @sresult R P) : @foutcome (option R) P :=
  mkFout (x_success r) (defined (x_x r)) (defined (x_jac r)) (defined (fun p => - x_jac r p)) (x_active r)
    (Some (x_fun r)) (Some (x_offset r)) (x_nit r) (x_nfev r) (same_status (x_str r)) (Some (x_maxpen r)) (Some (x_maxpres r))
    (Some (x_tau r)).
Definition same_outcome {P} (o : result (@sresult R P)) : @foutcome (option R) P + fexn :=
  match o with
  | Ok r => inl (same_result r)
  | Raise UnboundLocalError => inr Unbound
  | Raise _ => inr BisectError
  end.
