(** * When the solver returns, and runs that start at the exact solution *)
From Coq Require Import Reals Lra List Bool Arith FunctionalExtensionality.
From Verif Require Import CCG_Model CCG_Real CCG_Spec CCG_Proofs CCG_Results CCG_Results2.
Import ListNotations.
Local Open Scope R_scope.

Section Returns.
  Context {P : Type}.
  Let K := ROps P.
  Variable c : @cfg R P.

  (** No hardness, or a number and no force. *)
  Definition tame : Prop := c_hard c = None \/ ((exists H, c_hard c = Some (HScalar H)) /\ c_ext c = None).

  Lemma iter_returns s : tame -> exists fu, iter K c s = Ok fu.
  Proof.
    intros T. unfold iter, first_half, second_half, max_pres.
    destruct T as [E|[[H E] E']].
    - rewrite E. eexists. reflexivity.
    - rewrite E. destruct (do_cg K c s).
      + destruct (oeqb K H (o0 K)); [eexists; reflexivity|].
        destruct (Nat.ltb _ _); [|eexists; reflexivity]. destruct (rmin _ _ _ _); eexists; reflexivity.
      + unfold mix_half. rewrite E'.
        destruct (oeqb K H (o0 K)); [eexists; reflexivity|].
        destruct (Nat.ltb _ _); [|eexists; reflexivity]. destruct (rmin _ _ _ _); eexists; reflexivity.
  Qed.
  Lemma loop_returns maxiter n : tame -> forall s last, (n = O -> last <> None) ->
    exists r, snd (loop K c maxiter n s last) = Ok r.
  Proof.
    intros T. induction n as [|n IH]; intros s last L; cbn [loop].
    - destruct last; [eexists; reflexivity|]. exfalso. now apply L.
    - destruct (iter_returns s T) as [fu E]. rewrite E. destruct (fu_conv fu); [eexists; reflexivity|].
      destruct (IH (fu_state fu) (Some fu)) as [r Hr]; [discriminate|].
      destruct (loop K c maxiter n (fu_state fu) (Some fu)) as [evs o]. cbn in *. eauto.
  Qed.
  Lemma ccg_returns n : tame -> exists r, ccg c (S n) = Ok r.
  Proof. intros T. apply loop_returns; [exact T|discriminate]. Qed.

  Lemma exact_start q n : covers c -> elastic c -> tolerances_positive c -> offset_control c ->
    exact_solution c (c_offset c) q -> s_f (init_state K c) = (fun p => - q p) ->
    s_u (init_state K c) = c_disp c (fun p => - q p) ->
    exists r, ccg c (S n) = Ok r /\ x_success r = true /\ x_nit r = 1%nat /\
      x_jac r = q /\ x_x r = c_disp c (fun p => - q p) /\ x_offset r = c_offset c /\ x_str r = Cg.
  Proof.
    intros Cov El Tol He Ex Hf Hu.
    destruct (ex_iter c q (c_offset c) Cov El Tol Ex (init_state K c)) as (fu&H1&H2&H3&H4&H5&H6&H7); auto.
    - rewrite cg_half_off. unfold offset_control in He. rewrite He. reflexivity.
    - intros Fx E. unfold offset_control in He. congruence.
    - eexists. split; [eapply run_one; eauto|]. simpl. rewrite H3, H4, H5, H6, H7. repeat split; auto.
      apply functional_extensionality. intros p. lra.
  Qed.
End Returns.
