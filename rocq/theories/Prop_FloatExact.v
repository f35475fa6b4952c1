(** * C85, continued: the two models of the contact solver agree

    Float_Model.v is the solver on one process in an arithmetic of one's choice,
    CCG_Model.v the solver on exact real numbers.  In exact arithmetic they are
    the same program. *)
From Coq Require Import Reals Lra Lia List Bool Arith FunctionalExtensionality.
From Verif Require Import CCG_Model CCG_Real CCG_Spec CCG_Witness Float_Model FloatExact_Spec FloatExact.
From Coq Require Import List.
Import ListNotations.
Local Open Scope R_scope.

(** Same displacements, pressures, active set, energy, offset, counters,
    status, step length and reported errors, or the same exception; in
    particular no undefined number occurs. *)
Theorem C85_exact : forall P (c : @cfg R P) (k : @fcfg (option R) P), same_problem c k ->
  (exists p, In p (grid c) /\ on_surface c p) -> (0 < c_nsurf c)%nat ->
  forall n, frun XArith k n = same_outcome (ccg c n).
Proof.
  intros P c k SP (p & I & Sl & Ma) NS n. apply run_eq; [exact SP| |exact NS].
  exists p. split.
  - unfold grid in I. rewrite (sp_ranks _ _ SP) in I. cbn in I. rewrite app_nil_r in I. exact I.
  - unfold fcomp. rewrite (sp_slice _ _ SP), (sp_masked _ _ SP), Sl, Ma. reflexivity.
Qed.
Print Assumptions C85_exact.

(** Every problem on one process without array hardness has a counterpart. *)
Theorem C85_exact_all : forall P (c : @cfg R P) pts, c_ranks c = [pts] -> (forall H, c_hard c <> Some (HArray H)) ->
  exists k, same_problem c k.
Proof. intros P c pts RK HA. exists (in_exact pts c). apply in_exact_same; assumption. Qed.
Print Assumptions C85_exact_all.

(** A plastic run that mixes. *)
Example C85_nonvacuous_exact : exists k, same_problem E4c k /\ (exists p, In p (grid E4c) /\ on_surface E4c p) /\ (0 < c_nsurf E4c)%nat /\
  exists o, frun XArith k 50 = inl o /\ o_str o = FMix /\ o_jac o false = Some (1 / 10).
Proof.
  assert (SP : same_problem E4c (in_exact pts2 E4c)) by (apply in_exact_same; [reflexivity|discriminate]).
  assert (CN : exists p, In p (grid E4c) /\ on_surface E4c p) by (exists false; split; [cbn; auto|split; reflexivity]).
  assert (NS : (0 < c_nsurf E4c)%nat) by (cbn; lia).
  exists (in_exact pts2 E4c). split; [exact SP|]. split; [exact CN|]. split; [exact NS|].
  destruct E4_run as (r & H & H1 & H2 & _ & H3 & _). exists (same_result r). split.
  - rewrite (C85_exact bool E4c _ SP CN NS). unfold pts2 in *. rewrite H. reflexivity.
  - split; [change (same_status (x_str r) = FMix)|change (Some (x_jac r false) = Some (1 / 10)); f_equal; assumption].
    match goal with Q : x_str r = Mix |- _ => rewrite Q end. reflexivity.
Qed.
