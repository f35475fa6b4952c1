(** * Algebra of the isotropic surface Green's function *)

From Coq Require Import Reals Lra Lia Psatz.
From Coquelicot Require Import Coquelicot.
From Verif Require Import Py GreenwoodTripp_Model Isotropic_Model.
From Coq Require Import List.
Import ListNotations.
Local Open Scope R_scope.

Definition mmul (A B : cmat) (i j : nat) : C :=
  (at_ A i 0 * at_ B 0 j + at_ A i 1 * at_ B 1 j + at_ A i 2 * at_ B 2 j)%C.
Definition delta (i j : nat) : C := if Nat.eqb i j then RtoC 1 else RtoC 0.

Lemma lt3 : forall i, (i < 3)%nat -> i = 0%nat \/ i = 1%nat \/ i = 2%nat.
Proof. intros i H. lia. Qed.
Lemma at_mat_of : forall f i j, (i < 3)%nat -> (j < 3)%nat -> at_ (mat_of f) i j = f i j.
Proof. intros f i j Hi Hj. destruct (lt3 i Hi) as [E|[E|E]]; destruct (lt3 j Hj) as [F|[F|F]]; subst; reflexivity. Qed.

(** ** The inverse of a 3x3 matrix *)
Lemma inv3_spec : forall M N, inv3 M = Ret N -> forall i j, (i < 3)%nat -> (j < 3)%nat ->
  mmul M N i j = delta i j /\ mmul N M i j = delta i j.
Proof.
  intros M N H i j Hi Hj. unfold inv3 in H. destruct (Ceq_dec (det3 M) (RtoC 0)) as [D|D]; [discriminate|].
  injection H as H. subst N. unfold mmul. rewrite !at_mat_of by lia.
  assert (D' := D). unfold det3 in D'.
  destruct (lt3 i Hi) as [E|[E|E]]; destruct (lt3 j Hj) as [F|[F|F]]; subst; unfold cof3, delta, det3;
    cbn [Nat.modulo Nat.divmod Nat.add Nat.sub fst snd Nat.eqb]; split; field; exact D'.
Qed.
Lemma inv3_ok : forall M, det3 M <> RtoC 0 -> exists N, inv3 M = Ret N.
Proof. intros M H. unfold inv3. destruct (Ceq_dec (det3 M) (RtoC 0)) as [D|D]; [contradiction|]. eexists. reflexivity. Qed.
(** Inverses are unique. *)
Lemma left_right_inv : forall A B D : cmat,
  (forall i j, (i < 3)%nat -> (j < 3)%nat -> mmul A B i j = delta i j) ->
  (forall i j, (i < 3)%nat -> (j < 3)%nat -> mmul B D i j = delta i j) ->
  forall i j, (i < 3)%nat -> (j < 3)%nat -> at_ A i j = at_ D i j.
Proof.
  intros A B D H1 H2 i j Hi Hj.
  assert (L : (at_ A i 0 * mmul B D 0 j + at_ A i 1 * mmul B D 1 j + at_ A i 2 * mmul B D 2 j
             = mmul A B i 0 * at_ D 0 j + mmul A B i 1 * at_ D 1 j + mmul A B i 2 * at_ D 2 j)%C) by (unfold mmul; ring).
  rewrite !H1, !H2 in L by lia.
  destruct (lt3 i Hi) as [E|[E|E]]; destruct (lt3 j Hj) as [F|[F|F]]; subst; unfold delta in L; cbn [Nat.eqb] in L;
    ring_simplify in L; exact L.
Qed.

Section G.
  Variables mu nu qx qy : R.
  Hypothesis Hmu : mu <> 0.
  Hypothesis Hq : qx <> 0 \/ qy <> 0.
  Let q := sqrt (qx ^ 2 + qy ^ 2).
  Let G := iso_greens mu nu qx qy.

  Lemma q2_pos : 0 < qx ^ 2 + qy ^ 2.
  Proof. destruct Hq; pose proof (pow2_ge_0 qx); pose proof (pow2_ge_0 qy);
    pose proof (pow2_gt_0 qx); pose proof (pow2_gt_0 qy); tauto || (specialize (H2 H); lra) || (specialize (H3 H); lra). Qed.
  Lemma q_pos : 0 < q.
  Proof. apply sqrt_lt_R0. exact q2_pos. Qed.
  Lemma q_sq : q ^ 2 = qx ^ 2 + qy ^ 2.
  Proof. apply pow2_sqrt. left. exact q2_pos. Qed.

  (** The entries as pairs of real numbers. *)
  Lemma G00 : at_ G 0 0 = ((q ^ 2 - nu * qx ^ 2) / (mu * q ^ 3), 0).
  Proof. pose proof q_pos. unfold G, iso_greens. fold q. cbn. apply injective_projections; cbn; field; repeat split; try lra; nra. Qed.
  Lemma G11 : at_ G 1 1 = ((q ^ 2 - nu * qy ^ 2) / (mu * q ^ 3), 0).
  Proof. pose proof q_pos. unfold G, iso_greens. fold q. cbn. apply injective_projections; cbn; field; repeat split; try lra; nra. Qed.
  Lemma G22 : at_ G 2 2 = ((1 - nu) / (mu * q), 0).
  Proof. pose proof q_pos. unfold G, iso_greens. fold q. cbn. apply injective_projections; cbn; field; repeat split; try lra; nra. Qed.
  Lemma G01 : at_ G 0 1 = (- nu * qx * qy / (mu * q ^ 3), 0).
  Proof. pose proof q_pos. unfold G, iso_greens. fold q. cbn. apply injective_projections; cbn; field; repeat split; try lra; nra. Qed.
  Lemma G10 : at_ G 1 0 = (- nu * qx * qy / (mu * q ^ 3), 0).
  Proof. pose proof q_pos. unfold G, iso_greens. fold q. cbn. apply injective_projections; cbn; field; repeat split; try lra; nra. Qed.
  Lemma G02 : at_ G 0 2 = (0, (1 - 2 * nu) * qx / (2 * mu * q ^ 2)).
  Proof. pose proof q_pos. unfold G, iso_greens. fold q. cbn. apply injective_projections; cbn; field; repeat split; try lra; nra. Qed.
  Lemma G12 : at_ G 1 2 = (0, (1 - 2 * nu) * qy / (2 * mu * q ^ 2)).
  Proof. pose proof q_pos. unfold G, iso_greens. fold q. cbn. apply injective_projections; cbn; field; repeat split; try lra; nra. Qed.
  Lemma G20 : at_ G 2 0 = (0, - (1 - 2 * nu) * qx / (2 * mu * q ^ 2)).
  Proof. pose proof q_pos. unfold G, iso_greens. fold q. cbn. apply injective_projections; cbn; field; repeat split; try lra; nra. Qed.
  Lemma G21 : at_ G 2 1 = (0, - (1 - 2 * nu) * qy / (2 * mu * q ^ 2)).
  Proof. pose proof q_pos. unfold G, iso_greens. fold q. cbn. apply injective_projections; cbn; field; repeat split; try lra; nra. Qed.

  Lemma G_det : det3 G = RtoC ((3 - 4 * nu) / (4 * (mu * q) ^ 3)).
  Proof.
    pose proof q_pos as Q. pose proof q_sq as E. unfold det3. rewrite G00, G01, G02, G10, G11, G12, G20, G21, G22.
    assert (EX : qx ^ 2 = q ^ 2 - qy ^ 2) by lra. clearbody q.
    apply injective_projections; cbn; field [EX]; split; lra.
  Qed.
  Lemma G_det_ne : nu <> 3 / 4 -> det3 G <> RtoC 0.
  Proof.
    intros H. rewrite G_det. pose proof q_pos as Q. intros C. apply (f_equal fst) in C. cbn in C.
    apply Rmult_integral in C. destruct C as [C|C]; [lra|].
    revert C. apply Rinv_neq_0_compat. apply Rmult_integral_contrapositive_currified; [lra|].
    repeat apply Rmult_integral_contrapositive_currified; lra.
  Qed.
End G.
