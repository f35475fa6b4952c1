(** * The returned active set *)
From Coq Require Import Reals Lra List Bool Arith Lia.
From Verif Require Import CCG_Model CCG_Real CCG_Spec CCG_Proofs CCG_Results CCG_Results2.
Import ListNotations.
Local Open Scope R_scope.

Section Active.
  Context {P : Type}.
  Notation K := (ROps P).
  Variable c : @cfg R P.
  Hypothesis El : elastic c.

  (** The set of the last iteration. *)
  Lemma active_exit : forall (Inv : @state R P -> Prop), Inv (init_state K c) ->
    (forall s fu, Inv s -> iter K c s = Ok fu -> Inv (fu_state fu)) ->
    forall n r, ccg c n = Ok r -> exists s, Inv s /\ x_nit r = S (s_nit s)
      /\ x_active r = (fun p => Rltb (s_f s p) 0).
  Proof.
    intros Inv I0 IS n r H. apply (run_exit c Inv IS) in H; [|exact I0]. destruct H as (s & fu & HI & Hi & E).
    exists s. split; [exact HI|].
    pose proof Hi as Hi'. apply iter_inv in Hi'. destruct Hi' as (h & mp & F & _ & Fh & _ & _ & _ & _ & St & _ & Nn & _).
    unfold first_half in F. rewrite El in F. injection F as F.
    assert (C : h_c h = fun p => Rltb (s_f s p) 0).
    { rewrite <- F. unfold cg_half. cbn [h_c]. unfold cg_set. rewrite El. reflexivity. }
    assert (M : is_mix (s_str (fu_state fu)) = false).
    { rewrite St. unfold new_str. rewrite <- F. unfold cg_half. cbn [h_str]. destruct (s_str s); cbn; destruct (any_nc _ _ _); reflexivity. }
    destruct E as [[_ ->]| ->].
    - cbn [converged_result x_nit x_active]. rewrite M, Fh. split; [exact Nn|exact C].
    - cbn [failed_result x_nit x_active]. rewrite Fh. split; [exact Nn|exact C].
  Qed.

  (** Points without topography are never active. *)
  Lemma active_surface : forall n r, ccg c n = Ok r -> forall p, ~ on_surface c p -> x_active r p = false.
  Proof.
    intros n r H p Np. destruct (active_exit _ (main_init c) (main_step c (elastic_hard c El)) n r H) as (s & [Pd _] & _ & ->).
    apply Bool.not_true_iff_false. intro Q. apply Rltb_true in Q.
    assert (C0 : comp c p = false); [|destruct (Pd p C0) as [Z _]; lra].
    apply Bool.not_true_iff_false. intro C. apply Np. apply comp_spec. exact C.
  Qed.

  (** After one iteration: the points under pressure at the start. *)
  Lemma active_first : forall n r, ccg c n = Ok r -> x_nit r = 1%nat ->
    x_active r = fun p => Rltb (s_f (init_state K c) p) 0.
  Proof.
    intros n r H N1.
    destruct (active_exit (fun s => s_nit s = O -> s = init_state K c) (fun _ => eq_refl)) with (n := n) (r := r) as (s & HI & Nn & ->); [|exact H|].
    - intros s fu _ Hi Q. apply iter_inv in Hi. destruct Hi as (h & mp & _ & _ & _ & _ & _ & _ & _ & _ & _ & Nn & _). congruence.
    - rewrite HI by congruence. reflexivity.
  Qed.
End Active.
