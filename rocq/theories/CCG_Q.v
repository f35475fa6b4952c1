(** Rational instance of the solver model, matrix substrates, and the transfer
    of executed runs to the real-number model. *)
From Coq Require Import Reals Lra List Bool Arith QArith Qreals FunctionalExtensionality Lia.
From Verif Require Import CCG_Model CCG_Real CCG_Spec CCG_Hom.
Import ListNotations.

Section QInst.
  Context {P : Type}.
  Variable eqb : P -> P -> bool.
  Hypothesis eqb_eq : forall a b, eqb a b = true -> a = b.
  Variable pts : list P.

  Fixpoint assoc (l : list (P * Q)) (p : P) : option Q :=
    match l with
    | [] => None
    | (q, v) :: l => if eqb p q then Some v else assoc l p
    end.
  (** Tabulation with reduced fractions. *)
  Definition qmat (f : P -> Q) : P -> Q :=
    let tbl := map (fun p => (p, Qred (f p))) pts in
    fun p => match assoc tbl p with Some v => v | None => f p end.

  Definition Qltb (a b : Q) : bool := negb (Qle_bool b a).
  Definition QOps : Ops Q P :=
    mkOps Q P 0%Q 1%Q (fun a b => Qred (a + b)) (fun a b => Qred (a - b)) (fun a b => Qred (a * b))
      Qopp (fun a b => Qred (a / b)) Qltb Qeq_bool (fun n => inject_Z (Z.of_nat n)) qmat.

  Lemma Q2R_red q : Q2R (Qred q) = Q2R q.
  Proof. apply Qeq_eqR, Qred_correct. Qed.

  Lemma qmat_ok f p : Q2R (qmat f p) = Q2R (f p).
  Proof.
    unfold qmat. induction pts as [|q l IH]; simpl; auto.
    destruct (eqb p q) eqn:E; auto. apply eqb_eq in E. subst. apply Q2R_red.
  Qed.

  Lemma Q2R_div' a b : Q2R (a / b) = (Q2R a / Q2R b)%R.
  Proof.
    unfold Qdiv, Rdiv. rewrite Q2R_mult. f_equal.
    rewrite RMicromega.Q2R_inv_ext. destruct (Qeq_bool b 0) eqn:E; auto.
    apply Qeq_bool_eq in E. apply Qeq_eqR in E. rewrite E.
    replace (Q2R 0) with 0%R by (unfold Q2R; simpl; lra). symmetry. apply Rinv_0.
  Qed.

  Lemma QR_hom : is_hom QOps (ROps P) Q2R.
  Proof.
    constructor; intros; cbn [QOps ROps o0 o1 oadd osub omul oopp odiv oltb oeqb onat mat].
    - unfold Q2R; simpl; lra.
    - unfold Q2R; simpl; lra.
    - now rewrite Q2R_red, Q2R_plus.
    - now rewrite Q2R_red, Q2R_minus.
    - now rewrite Q2R_red, Q2R_mult.
    - now rewrite Q2R_opp.
    - now rewrite Q2R_red, Q2R_div'.
    - unfold Qltb. destruct (Qle_bool b a) eqn:E; simpl.
      + apply Rltb_false. apply Qle_bool_iff in E. now apply Qle_Rle.
      + apply Rltb_true. apply Rnot_le_lt. intros Hle. apply Rle_Qle in Hle. apply Qle_bool_iff in Hle. congruence.
    - destruct (Qeq_bool a b) eqn:E.
      + apply Reqb_true. now apply Qeq_eqR, Qeq_bool_eq.
      + apply Reqb_false. intros He. apply eqR_Qeq in He. apply Qeq_eq_bool in He. congruence.
    - rewrite INR_IZR_INZ. unfold Q2R, inject_Z. simpl. rewrite Rinv_1. ring.
    - apply functional_extensionality. intros p. unfold lift. now rewrite qmat_ok.
  Qed.

  (** A substrate given by its compliance and stiffness matrices: compressive
      (negative) forces push the surface up. *)
  Definition qmatvec (M : P -> P -> Q) (f : P -> Q) (p : P) : Q :=
    fold_right (fun q a => (- (M p q * f q) + a)%Q) 0%Q pts.
  Definition rmatvec (M : P -> P -> Q) (f : P -> R) (p : P) : R :=
    fold_right (fun q a => (- (Q2R (M p q) * f q) + a)%R) 0%R pts.
  Lemma matvec_ok M f : rmatvec M (lift Q2R f) = lift Q2R (qmatvec M f).
  Proof.
    apply functional_extensionality. intros p. unfold rmatvec, qmatvec, lift.
    induction pts as [|q l IH]; simpl. unfold Q2R; simpl; lra.
    rewrite IH, Q2R_plus, Q2R_opp, Q2R_mult. reflexivity.
  Qed.

  (** Problem data with rational numbers. *)
  Record qprob := mkProb {
    q_slice : P -> bool; q_masked : P -> bool;
    q_C : P -> P -> Q; q_S : P -> P -> Q;
    q_h : P -> Q; q_hard : option Q; q_ext : option Q; q_off : Q;
    q_f0 : option (P -> Q);
    q_pentol : Q; q_forcetol : Q; q_thermotol : Q }.

  (** The same problem as a configuration of the rational / real model: one
      process, default mixing parameters. *)
  Definition qcfg (b : qprob) : @cfg Q P :=
    mkCfg [pts] (q_slice b) (q_masked b) (q_h b) (qmatvec (q_C b)) (qmatvec (q_S b))
      (option_map HScalar (q_hard b)) (q_ext b) (q_off b) None (q_f0 b)
      (q_pentol b) (q_forcetol b) (q_thermotol b) (1#10) (19#20) 10 (length pts) (fun _ _ _ => None).
  Definition rcfg_of (b : qprob) : @cfg R P :=
    mkCfg [pts] (q_slice b) (q_masked b) (lift Q2R (q_h b)) (rmatvec (q_C b)) (rmatvec (q_S b))
      (option_map (fun x => HScalar (Q2R x)) (q_hard b)) (option_map Q2R (q_ext b)) (Q2R (q_off b)) None
      (option_map (lift Q2R) (q_f0 b))
      (Q2R (q_pentol b)) (Q2R (q_forcetol b)) (Q2R (q_thermotol b)) (Q2R (1#10)) (Q2R (19#20)) 10
      (length pts) (fun _ _ _ => None).

  Lemma cfg_of_hom b : cfg_hom Q2R (qcfg b) (rcfg_of b).
  Proof.
    constructor; simpl; auto using matvec_ok.
    destruct (q_hard b); reflexivity.
  Qed.

  Lemma ccg_exec b n r : run QOps (qcfg b) n = Ok r ->
    ccg (rcfg_of b) n = Ok (map_result Q2R r).
  Proof.
    intros H. unfold ccg. rewrite (run_hom QOps (ROps P) Q2R QR_hom _ _ (cfg_of_hom b)), H. reflexivity.
  Qed.

  (** Executed checks. *)
  Lemma exec_check b n (chk : @sresult Q P -> bool) :
    (match run QOps (qcfg b) n with Ok r => chk r | Raise _ => false end) = true ->
    exists r, ccg (rcfg_of b) n = Ok (map_result Q2R r) /\ chk r = true.
  Proof.
    intros H. destruct (run QOps (qcfg b) n) as [r|] eqn:E; [|discriminate].
    exists r. split; auto. now apply ccg_exec.
  Qed.
  Lemma Qltb_R a b : Qltb a b = true -> (Q2R a < Q2R b)%R.
  Proof.
    unfold Qltb. intros H. apply Rnot_le_lt. intros Hle. apply Rle_Qle in Hle.
    apply Qle_bool_iff in Hle. rewrite Hle in H. discriminate.
  Qed.
  Lemma Qeqb_R a b : Qeq_bool a b = true -> Q2R a = Q2R b.
  Proof. intros H. apply Qeq_eqR, Qeq_bool_eq, H. Qed.

  (** Linearity of matrix substrates. *)
  Lemma rmatvec_linear M : linear (rmatvec M).
  Proof.
    unfold linear, rmatvec. split; intros; induction pts; simpl; try lra; rewrite IHl; ring.
  Qed.
End QInst.
