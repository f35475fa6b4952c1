(** * A worked example of the anisotropic Green's function

    A linear algebra library that meets the hypotheses of the theorems, and a
    cubic crystal for which the calculation goes through. *)

From Coq Require Import Reals Lra Lia Psatz Bool FunctionalExtensionality.
From Coquelicot Require Import Coquelicot.
From Verif Require Import Py FFT_Base GreenwoodTripp_Model GreenwoodTripp_Proofs Isotropic_Proofs Elasticity_Spec Anisotropic_Spec
  Anisotropic_Model Anisotropic_Tensor Anisotropic_Field Anisotropic_Proofs Anisotropic_Kernel Anisotropic_Main.
From Coq Require Import List.
Import ListNotations.
Local Open Scope R_scope.

Definition adj3 (M : cmx) : cmx := fun i j =>
  match i, j with
  | 0%nat, 0%nat => M 1%nat 1%nat * M 2%nat 2%nat - M 1%nat 2%nat * M 2%nat 1%nat | 0%nat, 1%nat => M 0%nat 2%nat * M 2%nat 1%nat - M 0%nat 1%nat * M 2%nat 2%nat | 0%nat, _ => M 0%nat 1%nat * M 1%nat 2%nat - M 0%nat 2%nat * M 1%nat 1%nat
  | 1%nat, 0%nat => M 1%nat 2%nat * M 2%nat 0%nat - M 1%nat 0%nat * M 2%nat 2%nat | 1%nat, 1%nat => M 0%nat 0%nat * M 2%nat 2%nat - M 0%nat 2%nat * M 2%nat 0%nat | 1%nat, _ => M 0%nat 2%nat * M 1%nat 0%nat - M 0%nat 0%nat * M 1%nat 2%nat
  | _, 0%nat => M 1%nat 0%nat * M 2%nat 1%nat - M 1%nat 1%nat * M 2%nat 0%nat | _, 1%nat => M 0%nat 1%nat * M 2%nat 0%nat - M 0%nat 0%nat * M 2%nat 1%nat | _, _ => M 0%nat 0%nat * M 1%nat 1%nat - M 0%nat 1%nat * M 1%nat 0%nat
  end%C.
Definition inv4 (i j : nat) : R :=
  nth j (nth i [[- / 36; / 24; - / 60; / 360]; [14 / 36; - 13 / 24; 10 / 60; - 5 / 360];
                [- 49 / 36; 36 / 24; - 9 / 60; 4 / 360]; [1; 0; 0; 0]] []) 0.
Definition is_sample (A : cmx) : bool :=
  forallb (fun ab => if Ceq_dec (A (fst ab) (snd ab)) (sample_A (fst ab) (snd ab)) then true else false)
    (list_prod (seq 0 4) (seq 0 4)).
Definition solve0 (n m : nat) (A B : cmx) : res cmx :=
  match n with
  | 3%nat => if Ceq_dec (cdet3 A) (RtoC 0) then Exc ValueErr
             else Ret (fun i j => csum3 (fun k => adj3 A i k * B k j) / cdet3 A)%C
  | 4%nat => if is_sample A then Ret (fun i j => Csum 4 (fun k => RtoC (inv4 i k) * B k j)%C) else Exc ValueErr
  | _ => Exc ValueErr
  end.

Lemma sample_inv : forall i j, (i < 4)%nat -> (j < 4)%nat ->
  Csum 4 (fun k => sample_A i k * RtoC (inv4 k j))%C = (if Nat.eqb i j then RtoC 1 else RtoC 0) /\
  Csum 4 (fun k => RtoC (inv4 i k) * sample_A k j)%C = (if Nat.eqb i j then RtoC 1 else RtoC 0).
Proof.
  assert (L4 : forall i, (i < 4)%nat -> i = 0%nat \/ i = 1%nat \/ i = 2%nat \/ i = 3%nat) by (intros; lia).
  intros i j Hi Hj. unfold sample_A. cbn [Csum].
  split; rewrite <- !RtoC_mult, <- !RtoC_plus; destruct (L4 i Hi) as [->|[->|[->| ->]]]; destruct (L4 j Hj) as [->|[->|[->| ->]]];
    cbn [Nat.eqb]; apply (f_equal RtoC); unfold inv4; cbn [nth INR]; field.
Qed.

Lemma solve0_ok : solve_ok solve0.
Proof.
  intros n m A B X H. unfold solve0 in H. destruct n as [|[|[|[|[|n]]]]]; try discriminate.
  - destruct (Ceq_dec (cdet3 A) (RtoC 0)) as [D|D]; [discriminate|]. injection H as <-.
    split.
    + exists (fun i j => adj3 A i j / cdet3 A)%C.
      split; intros i j Hi Hj; unfold cprod; rewrite Csum3; unfold csum3.
      * transitivity ((A i 0%nat * adj3 A 0%nat j + A i 1%nat * adj3 A 1%nat j + A i 2%nat * adj3 A 2%nat j) / cdet3 A)%C; [field; exact D|].
        destruct (Nat.eqb_spec i j) as [->|N].
        -- transitivity (cdet3 A / cdet3 A)%C; [|field; exact D]. f_equal. idx Hj; unfold cdet3, adj3; ring.
        -- transitivity (RtoC 0 / cdet3 A)%C; [|field; exact D]. f_equal. idx Hi; idx Hj; try (exfalso; apply N; reflexivity); unfold adj3; ring.
      * transitivity ((adj3 A i 0%nat * A 0%nat j + adj3 A i 1%nat * A 1%nat j + adj3 A i 2%nat * A 2%nat j) / cdet3 A)%C; [field; exact D|].
        destruct (Nat.eqb_spec i j) as [->|N].
        -- transitivity (cdet3 A / cdet3 A)%C; [|field; exact D]. f_equal. idx Hj; unfold cdet3, adj3; ring.
        -- transitivity (RtoC 0 / cdet3 A)%C; [|field; exact D]. f_equal. idx Hi; idx Hj; try (exfalso; apply N; reflexivity); unfold adj3; ring.
    + intros i j Hi Hj. unfold cprod. rewrite Csum3. unfold csum3.
      transitivity (cdet3 A * B i j / cdet3 A)%C; [|field; exact D].
      transitivity ((A i 0%nat * (adj3 A 0%nat 0%nat * B 0%nat j + adj3 A 0%nat 1%nat * B 1%nat j + adj3 A 0%nat 2%nat * B 2%nat j)
        + A i 1%nat * (adj3 A 1%nat 0%nat * B 0%nat j + adj3 A 1%nat 1%nat * B 1%nat j + adj3 A 1%nat 2%nat * B 2%nat j)
        + A i 2%nat * (adj3 A 2%nat 0%nat * B 0%nat j + adj3 A 2%nat 1%nat * B 1%nat j + adj3 A 2%nat 2%nat * B 2%nat j)) / cdet3 A)%C; [field; exact D|].
      f_equal. idx Hi; unfold cdet3, adj3; ring.
  - destruct (is_sample A) eqn:SA; [|discriminate]. injection H as <-.
    assert (EA : forall i j, (i < 4)%nat -> (j < 4)%nat -> A i j = sample_A i j).
    { intros i j Hi Hj. unfold is_sample in SA. rewrite forallb_forall in SA. specialize (SA (i, j)). cbn [fst snd] in SA.
      destruct (Ceq_dec (A i j) (sample_A i j)) as [E|E]; [exact E|]. assert (false = true); [|discriminate]. apply SA.
      apply in_prod; apply in_seq; lia. }
    split.
    + exists (fun i j => RtoC (inv4 i j)). split; intros i j Hi Hj; unfold cprod.
      * rewrite <- (proj1 (sample_inv i j Hi Hj)). apply Csum_ext. intros k Hk. rewrite EA by assumption. reflexivity.
      * rewrite <- (proj2 (sample_inv i j Hi Hj)). apply Csum_ext. intros k Hk. rewrite EA by assumption. reflexivity.
    + intros i j Hi Hj. unfold cprod.
      rewrite (Csum_ext 4 _ (fun k => Csum 4 (fun k' => sample_A i k * RtoC (inv4 k k') * B k' j)%C)).
      2: { intros k Hk. rewrite EA by assumption. cbn [Csum]. ring. }
      rewrite Csum_swap.
      rewrite (Csum_ext 4 _ (fun k' => if Nat.eqb k' i then B k' j else RtoC 0)).
      * rewrite (Csum_delta 4 i (fun k' => B k' j)) by exact Hi. reflexivity.
      * intros k' Hk'. rewrite Csum_scal_r, (proj1 (sample_inv i k' Hi Hk')), (Nat.eqb_sym k' i). destruct (Nat.eqb i k'); ring.
Qed.

Definition roots0 (p : list C) : list C :=
  match p with
  | [a; b; c; d] => filter (fun r => if Ceq_dec (a * r * r * r + b * r * r + c * r + d)%C (RtoC 0) then true else false)
                      [RtoC 4; RtoC 1; RtoC (1 / 4)]
  | _ => []
  end.
Lemma roots0_short : roots_short roots0.
Proof.
  intros a b c d. unfold roots0. cbn [filter].
  destruct (Ceq_dec _ _); destruct (Ceq_dec _ _); destruct (Ceq_dec _ _); cbn; lia.
Qed.
Lemma roots0_ok : roots_ok roots0.
Proof.
  intros a b c d r H. unfold roots0 in H. apply filter_In in H. destruct H as [_ H]. destruct (Ceq_dec _ _) as [E|E]; [exact E|discriminate].
Qed.

(** The crystal: [C11 = 17/4], [C12 = 0], [C44 = 1]. *)
Definition Cex : rmat := fun a b => stored false (voigt_from_tensor (einsum_rot kron (elasticity_tensor (c_init (17 / 4) 0 1))) a b).
Lemma Cex_new : aniso_new false (17 / 4) 0 1 kron = Ret Cex.
Proof.
  unfold aniso_new. destruct (Rle_dec _ _) as [H|H]; [reflexivity|]. exfalso. apply H.
  replace (rdet3 kron - 1) with 0 by (unfold rdet3, kron; cbn [Nat.eqb]; ring). rewrite Rabs_R0, Rabs_R1.
  assert (0 < / 10 ^ 8) by (apply Rinv_0_lt_compat; lra). assert (0 < / 10 ^ 5) by (apply Rinv_0_lt_compat; lra). lra.
Qed.
Lemma kron_orth : orthogonal kron.
Proof. intros i j Hi Hj. idx Hi; idx Hj; unfold sum3s, kron; cbn [Nat.eqb]; ring. Qed.
Lemma Cex_cubic : forall i j k l, (i < 3)%nat -> (j < 3)%nat -> (k < 3)%nat -> (l < 3)%nat ->
  elasticity_tensor Cex i j k l = cubic (17 / 4) 0 1 i j k l.
Proof.
  intros i j k l Hi Hj Hk Hl. rewrite (aniso_tensor _ _ _ _ _ _ Cex_new) by assumption. cbn [stored]. rewrite T_closed.
  assert (P : forall i j, (i < 3)%nat -> (j < 3)%nat -> PP kron i j = kron i j) by exact kron_orth.
  rewrite !P by assumption. reflexivity.
Qed.
Lemma csqrt_RtoC : forall x, 0 <= x -> csqrt (RtoC x) = RtoC (sqrt x).
Proof.
  intros x H. unfold csqrt. rewrite Cmod_R, Rabs_right by lra. cbn [fst snd RtoC]. unfold RtoC. cbn [fst snd].
  replace ((x + x) / 2) with x by field. replace ((x - x) / 2) with 0 by field. rewrite sqrt_0. f_equal. ring.
Qed.

(** Values for the wavevector (1, 0). *)
Lemma Mex : forall qz i l, (i < 3)%nat -> (l < 3)%nat -> bulkop Cex (RtoC 1) (RtoC 0) qz i l =
  match i, l with
  | 0%nat, 0%nat => - (RtoC (17 / 4) + qz * qz) | 1%nat, 1%nat => - (1 + qz * qz) | 2%nat, 2%nat => - (1 + RtoC (17 / 4) * qz * qz)
  | 0%nat, 2%nat | 2%nat, 0%nat => - qz
  | _, _ => RtoC 0
  end%C.
Proof.
  intros qz i l Hi Hl. unfold bulkop, csum3. rewrite !Cex_cubic by lia. unfold cubic, kron, sum3s, qvec.
  idx Hi; idx Hl; cbn [Nat.eqb];
    rewrite ?Rmult_0_l, ?Rmult_0_r, ?Rmult_1_r, ?Rmult_1_l, ?Rplus_0_l, ?Rplus_0_r, ?Rmult_0_r, ?Rmult_1_r, ?Rplus_0_l, ?Rplus_0_r;
    try replace (1 + 1 + (17 / 4 - 0 - 2)) with (17 / 4) by field; ring.
Qed.
Lemma det_ex : forall qz, cdet3 (bulkop Cex (RtoC 1) (RtoC 0) qz) =
  (- (1 + qz * qz) * ((RtoC (17 / 4) + qz * qz) * (1 + RtoC (17 / 4) * qz * qz) - qz * qz))%C.
Proof. intros. unfold cdet3. rewrite !Mex by lia. ring. Qed.

Lemma null0_01 : forall M, cdet3 M = RtoC 0 -> cross (M 0%nat) (M 1%nat) 2 <> RtoC 0 -> null0 M = [cross (M 0%nat) (M 1%nat)].
Proof.
  intros M D N. unfold null0. destruct (Ceq_dec (cdet3 M) (RtoC 0)) as [_|X]; [|contradiction].
  destruct (zero3_dec (cross (M 0%nat) (M 1%nat))) as [(_ & _ & Z)|_]; [contradiction|reflexivity].
Qed.
Lemma null0_02 : forall M, cdet3 M = RtoC 0 -> zero3 (cross (M 0%nat) (M 1%nat)) -> cross (M 0%nat) (M 2%nat) 1 <> RtoC 0 ->
  null0 M = [cross (M 0%nat) (M 2%nat)].
Proof.
  intros M D (Z0 & Z1 & Z2) N. unfold null0. destruct (Ceq_dec (cdet3 M) (RtoC 0)) as [_|X]; [|contradiction].
  destruct (zero3_dec (cross (M 0%nat) (M 1%nat))) as [_|(l & Hl & W)].
  - destruct (zero3_dec (cross (M 0%nat) (M 2%nat))) as [(_ & Z & _)|_]; [contradiction|reflexivity].
  - exfalso. idx Hl; contradiction.
Qed.

Definition q_a : C := (0, - 2). Definition q_b : C := (0, - 1). Definition q_c : C := (0, - 1 / 2).
Ltac cnum := apply injective_projections; unfold cross, q_a, q_b, q_c, Ci, Cminus, Cplus, Copp, Cmult, RtoC; cbn [fst snd]; field.
Definition eta_a (k : nat) : C := match k with 0%nat => (0, - 6) | 1%nat => (0, 0) | _ => (- 3 / 4, 0) end.
Definition eta_b (k : nat) : C := match k with 1%nat => (153 / 16, 0) | _ => (0, 0) end.
Definition eta_c (k : nat) : C := match k with 0%nat => (0, 3 / 8) | 1%nat => (0, 0) | _ => (3, 0) end.

Lemma ev_a : exists v, find_eigenvector null0 Cex 1 0 q_a = Ret v /\ forall k, (k < 3)%nat -> v k = eta_a k.
Proof.
  unfold find_eigenvector. rewrite null0_01.
  - eexists. split; [reflexivity|]. intros k Hk. idx Hk; unfold cross; rewrite !Mex by lia; unfold eta_a; cnum.
  - rewrite det_ex. cnum.
  - unfold cross. rewrite !Mex by lia. intro E. apply (f_equal fst) in E. unfold q_a in E. cbn in E. lra.
Qed.
Lemma ev_c : exists v, find_eigenvector null0 Cex 1 0 q_c = Ret v /\ forall k, (k < 3)%nat -> v k = eta_c k.
Proof.
  unfold find_eigenvector. rewrite null0_01.
  - eexists. split; [reflexivity|]. intros k Hk. idx Hk; unfold cross; rewrite !Mex by lia; unfold eta_c; cnum.
  - rewrite det_ex. cnum.
  - unfold cross. rewrite !Mex by lia. intro E. apply (f_equal fst) in E. unfold q_c in E. cbn in E. lra.
Qed.
Lemma ev_b : exists v, find_eigenvector null0 Cex 1 0 q_b = Ret v /\ forall k, (k < 3)%nat -> v k = eta_b k.
Proof.
  unfold find_eigenvector. rewrite null0_02.
  - eexists. split; [reflexivity|]. intros k Hk. idx Hk; unfold cross; rewrite !Mex by lia; unfold eta_b; cnum.
  - rewrite det_ex. cnum.
  - repeat split; unfold cross; rewrite !Mex by lia; cnum.
  - unfold cross. rewrite !Mex by lia. intro E. apply (f_equal fst) in E. unfold q_b in E. cbn in E. lra.
Qed.

Lemma det_ex_sample : forall x, cdet3 (bulkop Cex (RtoC 1) (RtoC 0) (Ci * RtoC x)%C) =
  RtoC (17 / 4 * (x * x - 1) * (x * x - 4) * (x * x - 1 / 4)).
Proof.
  intros x. rewrite det_ex. replace (Ci * RtoC x)%C with ((0, x) : C) by (apply injective_projections; cbn; ring). cnum.
Qed.
Lemma example_eigenvalues : find_eigenvalues solve0 roots0 Cex 1 0 = Ret [RtoC 2; RtoC 1; RtoC (1 / 2)].
Proof.
  unfold find_eigenvalues. unfold solve0 at 1. replace (is_sample sample_A) with true.
  - cbn [bind]. f_equal.
    assert (P : forall k, (k < 4)%nat -> Csum 4 (fun a => RtoC (inv4 k a) * sample_b Cex 1 0 a 0%nat)%C =
      RtoC (nth k [17 / 4; - 357 / 16; 357 / 16; - 17 / 4] 0)).
    { intros k Hk. unfold sample_b. cbn [Csum]. rewrite !det_ex_sample, <- !RtoC_mult, <- !RtoC_plus. f_equal.
      replace (INR 0) with 0 by reflexivity. replace (INR 1) with 1 by reflexivity. replace (INR 2) with 2 by (cbn; ring). replace (INR 3) with 3 by (cbn; ring).
      assert (L4 : k = 0%nat \/ k = 1%nat \/ k = 2%nat \/ k = 3%nat) by lia.
      destruct L4 as [->|[->|[->| ->]]]; unfold inv4; cbn [nth]; lra. }
    rewrite !P by lia. cbn [nth]. unfold roots0. cbn [filter].
    destruct (Ceq_dec _ _) as [_|N]; [|exfalso; apply N; rewrite <- !RtoC_mult, <- !RtoC_plus; f_equal; field].
    destruct (Ceq_dec _ _) as [_|N]; [|exfalso; apply N; rewrite <- !RtoC_mult, <- !RtoC_plus; f_equal; field].
    destruct (Ceq_dec _ _) as [_|N]; [|exfalso; apply N; rewrite <- !RtoC_mult, <- !RtoC_plus; f_equal; field].
    cbn [map]. rewrite !csqrt_RtoC by lra.
    replace (sqrt 4) with 2. replace (sqrt (1 / 4)) with (1 / 2). rewrite sqrt_1. reflexivity.
    + symmetry. replace (1 / 4) with (1 / 2 * (1 / 2)) by field. apply sqrt_square. lra.
    + symmetry. replace 4 with (2 * 2) by ring. apply sqrt_square. lra.
  - symmetry. unfold is_sample. apply forallb_forall. intros [a b] _. cbn [fst snd]. destruct (Ceq_dec _ _); [reflexivity|contradiction].
Qed.

Lemma example_returns : exists Gs, greens_function solve0 roots0 null0 Cex None (Arr [1]) (Arr [0]) = Ret Gs.
Proof.
  unfold greens_function. cbn [length Nat.eqb negb map2 seq_res].
  assert (A1 : abs_q 1 0 = 1).
  { unfold abs_q. replace (1 ^ 2 + 0 ^ 2) with 1 by ring. rewrite sqrt_1. destruct (Req_EM_T 1 0); [lra|reflexivity]. }
  rewrite A1. replace (1 / 1) with 1 by field. replace (0 / 1) with 0 by field. cbn [scaled_thickness].
  assert (EE := example_eigenvalues).
  destruct ev_a as (va & Ea & Va). destruct ev_b as (vb & Eb & Vb). destruct ev_c as (vc & Ec & Vc).
  assert (EU : exists U F, make_U_and_F solve0 roots0 null0 Cex 1 0 None = Ret (3%nat, U, F) /\
     forall i a, (i < 3)%nat -> F i a = Frow Cex 1 0 (mode_qz [q_a; q_b; q_c]) (mode_eta [va; vb; vc]) i a).
  { unfold make_U_and_F. rewrite EE. cbn [bind mode_list map].
    replace (- Ci * RtoC 2)%C with q_a by cnum. replace (- Ci * RtoC 1)%C with q_b by cnum.
    replace (- Ci * RtoC (1 / 2))%C with q_c by cnum.
    unfold find_eigenvectors. cbn [map seq_res]. rewrite Ea, Eb, Ec. cbn [bind]. unfold make_F. cbn [length Nat.ltb Nat.leb andb bind].
    do 2 eexists. split; [reflexivity|]. intros i a Hi. destruct (Nat.ltb_spec i 3); [|lia].
    change (Nat.leb i 2) with (Nat.ltb i 3). destruct (Nat.ltb_spec i 3); [|lia]. reflexivity. }
  destruct EU as (U & F & EU & EF).
  assert (GF : exists M, greens_function1 solve0 roots0 null0 Cex None 1 0 None = Ret M).
  { unfold greens_function1. cbn [andb]. rewrite EU. cbn [bind]. unfold solve0.
    destruct (Ceq_dec (cdet3 (transpose F)) (RtoC 0)) as [D|D]; [|eexists; reflexivity]. exfalso.
    assert (FV : forall i a, (i < 3)%nat -> (a < 3)%nat -> F i a =
      match i, a with
      | 0%nat, 0%nat => (0, - 51 / 4) | 0%nat, 2%nat => (0, 51 / 16) | 1%nat, 1%nat => (153 / 16, 0) | 2%nat, 0%nat => (- 51 / 8, 0) | 2%nat, 2%nat => (51 / 8, 0)
      | _, _ => (0, 0)
      end).
    { intros i a Hi Ha. rewrite EF by exact Hi. unfold Frow, csum3. rewrite !Cex_cubic by lia. unfold qv, qvec.
      idx Ha; unfold mode_qz, mode_eta; cbn [nth]; rewrite ?Va, ?Vb, ?Vc by lia; unfold eta_a, eta_b, eta_c;
        idx Hi; unfold cubic, kron, sum3s; cbn [Nat.eqb]; apply injective_projections;
        unfold q_a, q_b, q_c, Cplus, Cmult, Ci, RtoC; cbn [fst snd]; field. }
    unfold cdet3, transpose in D. rewrite !FV in D by lia. apply (f_equal snd) in D. cbn in D. lra. }
  destruct GF as [M GF]. rewrite GF. cbn [bind]. eexists. reflexivity.
Qed.
