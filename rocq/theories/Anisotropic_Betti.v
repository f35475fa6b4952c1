(** * Reciprocity of the anisotropic Green's function *)

From Coq Require Import Reals Lra Lia Psatz FunctionalExtensionality.
From Coquelicot Require Import Coquelicot.
From Verif Require Import Py FFT_Base GreenwoodTripp_Model GreenwoodTripp_Proofs Isotropic_Proofs Elasticity_Spec Anisotropic_Spec
  Anisotropic_Model Anisotropic_Tensor Anisotropic_Field Anisotropic_Proofs Anisotropic_Theory.
From Coq Require Import List.
Import ListNotations.
Local Open Scope R_scope.

Definition tr (Cm : rmat) (x y q : C) (h : nat -> C) (i : nat) : C :=
  csum3 (fun k => csum3 (fun l => RtoC (elasticity_tensor Cm i 2 k l) * qvec x y q k * h l)%C).

Lemma betti_algebra : forall (Cm : rmat) (x y qa qb : C) (ha hb : nat -> C),
  (forall i j k l, (i < 3)%nat -> (j < 3)%nat -> (k < 3)%nat -> (l < 3)%nat ->
     elasticity_tensor Cm i j k l = elasticity_tensor Cm k l i j) ->
  kernel (bulkop Cm x y qa) ha -> kernel (bulkop Cm x y qb) hb ->
  ((qa - qb) * (csum3 (fun i => hb i * tr Cm x y qa ha i) + csum3 (fun i => tr Cm x y qb hb i * ha i)) = RtoC 0)%C.
Proof.
  intros Cm x y qa qb ha hb S Ka Kb.
  transitivity (- (csum3 (fun i => hb i * csum3 (fun l => bulkop Cm x y qa i l * ha l))
                   - csum3 (fun i => csum3 (fun l => bulkop Cm x y qb i l * hb l) * ha i)))%C.
  2: { unfold csum3 at 1 3. rewrite (Ka 0%nat), (Ka 1%nat), (Ka 2%nat), (Kb 0%nat), (Kb 1%nat), (Kb 2%nat) by lia. ring. }
  assert (V : forall a b, (a < 6)%nat -> (b < 6)%nat -> Cm a b = Cm b a).
  { assert (W : forall a, (a < 6)%nat -> exists i j, (i < 3)%nat /\ (j < 3)%nat /\ voigt i j = a).
    { intros c Hc. destruct c as [|[|[|[|[|[|c]]]]]]; [exists 0%nat, 0%nat|exists 1%nat, 1%nat|exists 2%nat, 2%nat|exists 1%nat, 2%nat|exists 0%nat, 2%nat|exists 0%nat, 1%nat|lia];
        cbn; repeat split; lia. }
    intros a b Ha Hb. destruct (W a Ha) as (i & j & Hi & Hj & E). destruct (W b Hb) as (k & l & Hk & Hl & E').
    rewrite <- E, <- E'. apply (S i j k l Hi Hj Hk Hl). }
  assert (v10 := V 1%nat 0%nat ltac:(lia) ltac:(lia)). assert (v20 := V 2%nat 0%nat ltac:(lia) ltac:(lia)).
  assert (v21 := V 2%nat 1%nat ltac:(lia) ltac:(lia)).
  assert (v30 := V 3%nat 0%nat ltac:(lia) ltac:(lia)). assert (v31 := V 3%nat 1%nat ltac:(lia) ltac:(lia)). assert (v32 := V 3%nat 2%nat ltac:(lia) ltac:(lia)).
  assert (v40 := V 4%nat 0%nat ltac:(lia) ltac:(lia)). assert (v41 := V 4%nat 1%nat ltac:(lia) ltac:(lia)). assert (v42 := V 4%nat 2%nat ltac:(lia) ltac:(lia)). assert (v43 := V 4%nat 3%nat ltac:(lia) ltac:(lia)).
  assert (v50 := V 5%nat 0%nat ltac:(lia) ltac:(lia)). assert (v51 := V 5%nat 1%nat ltac:(lia) ltac:(lia)). assert (v52 := V 5%nat 2%nat ltac:(lia) ltac:(lia)). assert (v53 := V 5%nat 3%nat ltac:(lia) ltac:(lia)). assert (v54 := V 5%nat 4%nat ltac:(lia) ltac:(lia)).
  unfold tr, bulkop, csum3, elasticity_tensor, voigt, qvec. cbn [Nat.eqb Nat.sub].
  rewrite v10, v20, v21, v30, v31, v32, v40, v41, v42, v43, v50, v51, v52, v53, v54. ring.
Qed.

Lemma Cconj_csum3 : forall f, Cconj (csum3 f) = csum3 (fun i => Cconj (f i)).
Proof. intros. unfold csum3. rewrite !Cconj_plus. reflexivity. Qed.
Lemma kernel_conj : forall Cm qx qy q h, kernel (bulkop Cm (RtoC qx) (RtoC qy) q) h ->
  kernel (bulkop Cm (RtoC qx) (RtoC qy) (Cconj q)) (fun l => Cconj (h l)).
Proof.
  intros Cm qx qy q h K i Hi. specialize (K i Hi). apply (f_equal Cconj) in K. rewrite Cconj_csum3, Cconj_RtoC in K.
  etransitivity; [|exact K]. apply csum3_ext. intros l Hl. rewrite Cconj_mult. f_equal. unfold bulkop. rewrite Cconj_csum3.
  apply csum3_ext. intros j Hj. rewrite Cconj_csum3. apply csum3_ext. intros k Hk. rewrite !Cconj_mult, Cconj_opp, Cconj_RtoC.
  f_equal; [f_equal|]; [destruct j as [|[|j]]|destruct k as [|[|k]]]; cbn [qvec]; rewrite ?Cconj_RtoC; reflexivity.
Qed.
Lemma tr_conj : forall Cm qx qy q h i, Cconj (tr Cm (RtoC qx) (RtoC qy) q h i) = tr Cm (RtoC qx) (RtoC qy) (Cconj q) (fun l => Cconj (h l)) i.
Proof.
  intros. unfold tr. rewrite Cconj_csum3. apply csum3_ext. intros k Hk. rewrite Cconj_csum3. apply csum3_ext. intros l Hl.
  rewrite !Cconj_mult, Cconj_RtoC. f_equal. f_equal. destruct k as [|[|k]]; cbn [qvec]; rewrite ?Cconj_RtoC; reflexivity.
Qed.

Section Hermitian.
  Variable Cm : rmat.
  Hypothesis S : forall i j k l, (i < 3)%nat -> (j < 3)%nat -> (k < 3)%nat -> (l < 3)%nat ->
     elasticity_tensor Cm i j k l = elasticity_tensor Cm k l i j.
  Variables (qx qy : R) (U F : cmx) (qz : nat -> C) (eta : nat -> nat -> C) (th : option R).
  Hypothesis M : modes_of Cm qx qy th 3 U F qz eta.
  Hypothesis Hdec : forall a, (a < 3)%nat -> snd (qz a) < 0.

  Lemma F_tr : forall i a, (i < 3)%nat -> F i a = (Ci * tr Cm (RtoC qx) (RtoC qy) (qz a) (eta a) i)%C.
  Proof.
    intros i a Hi. rewrite (mo_F _ _ _ _ _ _ _ _ _ M i a Hi). unfold Frow, tr, csum3, qv. ring.
  Qed.
  (** [U* F] is Hermitian. *)
  Lemma UF_hermitian : forall a b, (a < 3)%nat -> (b < 3)%nat ->
    csum3 (fun i => Cconj (U i b) * F i a)%C = csum3 (fun i => Cconj (F i b) * U i a)%C.
  Proof.
    intros a b Ha Hb.
    assert (Z := betti_algebra Cm (RtoC qx) (RtoC qy) (qz a) (Cconj (qz b)) (eta a) (fun l => Cconj (eta b l)) S
      (mo_ker _ _ _ _ _ _ _ _ _ M a Ha) (kernel_conj _ _ _ _ _ (mo_ker _ _ _ _ _ _ _ _ _ M b Hb))).
    assert (D : (qz a - Cconj (qz b))%C <> RtoC 0).
    { intro E. apply (f_equal snd) in E. cbn in E. pose proof (Hdec a Ha). pose proof (Hdec b Hb). lra. }
    match type of Z with (_ * ?X = _)%C => destruct (Ceq_dec X (RtoC 0)) as [W|W];
      [|exfalso; exact (Cmult_neq_0 _ _ D W Z)] end.
    unfold csum3. rewrite !F_tr by lia. rewrite !(mo_U _ _ _ _ _ _ _ _ _ M).
    rewrite !Cconj_mult, !tr_conj. replace (Cconj Ci) with (- Ci)%C by (apply injective_projections; cbn; ring).
    unfold csum3 in W. 
    match type of W with (?A + ?B = _)%C => transitivity (Ci * A)%C; [ring|]; transitivity (Ci * (A + B) - Ci * B)%C; [ring|] end.
    rewrite W. ring.
  Qed.

  (** Hence the Green's function [X], [Fᵀ X = Uᵀ], is Hermitian. *)
  Variables (X Ai : cmx).
  Hypothesis HA : is_eye 3 (cprod 3 Ai (transpose F)).
  Hypothesis HX : forall i j, (i < 3)%nat -> (j < 3)%nat -> cprod 3 (transpose F) X i j = transpose U i j.
  Lemma X_hermitian : forall i j, (i < 3)%nat -> (j < 3)%nat -> X i j = Cconj (X j i).
  Proof.
    (* F* X^* F = U* F is Hermitian, and F is regular *)
    assert (E : forall j a, (j < 3)%nat -> (a < 3)%nat -> U j a = csum3 (fun i => F i a * X i j)%C).
    { intros j a Hj Ha. symmetry. rewrite <- Csum3. apply (HX a j Ha Hj). }
    assert (K : forall a b, (a < 3)%nat -> (b < 3)%nat ->
      csum3 (fun i => csum3 (fun j => Cconj (F j b) * (Cconj (X j i) - X i j) * F i a))%C = RtoC 0).
    { intros a b Ha Hb. pose proof (UF_hermitian a b Ha Hb) as H.
      transitivity (csum3 (fun i => Cconj (U i b) * F i a) - csum3 (fun i => Cconj (F i b) * U i a))%C; [|rewrite H; ring].
      unfold csum3. rewrite !E by lia. unfold csum3. rewrite !Cconj_plus, !Cconj_mult. ring. }
    assert (AI : forall i k, (i < 3)%nat -> (k < 3)%nat -> csum3 (fun a => F k a * Ai i a)%C = if Nat.eqb i k then RtoC 1 else RtoC 0).
    { intros i k Hi Hk. rewrite <- (HA i k Hi Hk). unfold cprod, transpose. rewrite <- Csum3. apply Csum_ext. intros; ring. }
    intros i j Hi Hj.
    assert (L : csum3 (fun b => csum3 (fun a => Cconj (Ai j b) * csum3 (fun i' => csum3 (fun j' => Cconj (F j' b) * (Cconj (X j' i') - X i' j') * F i' a)) * Ai i a))%C = RtoC 0).
    { unfold csum3 at 1 2. rewrite !K by lia. unfold csum3. ring. }
    assert (L' : csum3 (fun i' => csum3 (fun j' => Cconj (csum3 (fun b => F j' b * Ai j b)) * (Cconj (X j' i') - X i' j') * csum3 (fun a => F i' a * Ai i a)))%C = RtoC 0).
    { etransitivity; [|exact L]. unfold csum3. rewrite !Cconj_plus, !Cconj_mult. ring. }
    unfold csum3 at 1 2 in L'. cbv beta in L'. rewrite !AI in L' by lia.
    assert (Z : (Cconj (X j i) - X i j = RtoC 0)%C).
    { etransitivity; [|exact L']. idx Hi; idx Hj; cbn [Nat.eqb]; rewrite ?Cconj_RtoC; ring. }
    transitivity (Cconj (X j i) - (Cconj (X j i) - X i j))%C; [ring|]. rewrite Z. ring.
  Qed.
End Hermitian.
