(** * Python-level vocabulary shared by the models: exceptions as values,
    array shapes. *)

From Coq Require Import List Bool Arith.
Import ListNotations.

(** Exceptions.  [SubstrateError] is [ElasticSubstrate.Error]
    (ContactMechanics/Substrates.py, class attribute), [CheckException] is
    [FreeFFTElasticHalfSpace.FreeBoundaryError] /  the check error classes;
    the others are Python's. *)
Inductive pyexn :=
| SubstrateError          (* Substrates.py: class Error(Exception) *)
| FreeBoundaryError       (* FFTElasticHalfSpace.py: class FreeBoundaryError *)
| ZeroDivisionError
| IndexError
| TypeErr
| ValueErr
| KeyErr
| AttributeErr
| RuntimeErr
| NotImplementedErr
| AssertionErr
| NameErr
| StopIterationErr
| FileNotFoundErr
| SystemExit
| IncompatibleFormulationErr   (* Systems.py / Factory.py *)
| IncompatibleResolutionErr
| GenericExc.

Inductive res (A : Type) :=
| Ret (a : A)
| Exc (e : pyexn).
Arguments Ret {A} a.
Arguments Exc {A} e.

Definition bind {A B} (m : res A) (k : A -> res B) : res B :=
  match m with Ret a => k a | Exc e => Exc e end.

Definition is_exc {A} (m : res A) : bool :=
  match m with Ret _ => false | Exc _ => true end.

Fixpoint shape_eqb (a b : list nat) : bool :=
  match a, b with
  | [], [] => true
  | x :: a', y :: b' => andb (Nat.eqb x y) (shape_eqb a' b')
  | _, _ => false
  end.

Lemma shape_eqb_spec : forall a b, shape_eqb a b = true <-> a = b.
Proof.
  induction a as [|x a IH]; destruct b as [|y b]; simpl; split; intro H;
    try reflexivity; try discriminate.
  - apply andb_prop in H. destruct H as [H1 H2].
    apply Nat.eqb_eq in H1. apply IH in H2. subst. reflexivity.
  - injection H as H1 H2. subst. rewrite Nat.eqb_refl. simpl. apply IH. reflexivity.
Qed.

Lemma shape_eqb_refl : forall a, shape_eqb a a = true.
Proof. intros. apply shape_eqb_spec. reflexivity. Qed.
