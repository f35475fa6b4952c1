(** * A rotated crystal for which no Green's function is found

    A cubic crystal turned about the y axis: the determinant of the bulk operator
    is not an even function of the third wavevector component, and the polynomial
    in the square of it that the code fits has no other roots in common with the
    determinant than the one of the shear wave. *)

From Coq Require Import Reals Lra Lia Psatz Bool FunctionalExtensionality.
From Coquelicot Require Import Coquelicot.
From Verif Require Import Py FFT_Base GreenwoodTripp_Model GreenwoodTripp_Proofs Isotropic_Proofs Elasticity_Spec Anisotropic_Spec
  Anisotropic_Model Anisotropic_Tensor Anisotropic_Field Anisotropic_Proofs Anisotropic_Theory Anisotropic_Kernel Anisotropic_Main Anisotropic_Example.
From Coq Require Import List.
Import ListNotations.
Local Open Scope R_scope.

Definition rot_y : rmat := fun i j =>
  match i, j with
  | 0%nat, 0%nat | 2%nat, 2%nat => 4 / 5 | 0%nat, 2%nat => 3 / 5 | 2%nat, 0%nat => - 3 / 5 | 1%nat, 1%nat => 1 | _, _ => 0
  end.
Lemma rot_y_orth : orthogonal rot_y.
Proof. intros i j Hi Hj. idx Hi; idx Hj; unfold sum3s, rot_y, kron; cbn [Nat.eqb]; field. Qed.

Section Crystal.
  Variable Cm : rmat.
  Hypothesis Hnew : aniso_new false (17 / 4) 0 1 rot_y = Ret Cm.

  Lemma T_rot : forall i j k l, (i < 3)%nat -> (j < 3)%nat -> (k < 3)%nat -> (l < 3)%nat ->
    elasticity_tensor Cm i j k l = kron i k * kron j l + kron i l * kron j k + 9 / 4 * sum3 (fun a => rot_y i a * rot_y j a * rot_y k a * rot_y l a).
  Proof.
    intros i j k l Hi Hj Hk Hl. rewrite (aniso_tensor _ _ _ _ _ _ Hnew) by assumption. cbn [stored]. rewrite T_closed.
    assert (P : forall i j, (i < 3)%nat -> (j < 3)%nat -> PP rot_y i j = kron i j) by exact rot_y_orth.
    rewrite !P by assumption. field.
  Qed.
  Lemma M_rot : forall z i l, (i < 3)%nat -> (l < 3)%nat -> bulkop Cm (RtoC 1) (RtoC 0) z i l =
    (- (match i, l with
       | 0%nat, 0%nat => RtoC (8033 / 2500) - RtoC (378 / 625) * z + RtoC (1273 / 625) * z * z
       | 2%nat, 2%nat => RtoC (1273 / 625) + RtoC (378 / 625) * z + RtoC (8033 / 2500) * z * z
       | 0%nat, 2%nat | 2%nat, 0%nat => - RtoC (189 / 625) + RtoC (1921 / 625) * z + RtoC (189 / 625) * z * z
       | 1%nat, 1%nat => 1 + z * z
       | _, _ => RtoC 0
       end))%C.
  Proof.
    intros [a b] i l Hi Hl. unfold bulkop, csum3. rewrite !T_rot by lia. unfold qvec.
    idx Hi; idx Hl; unfold kron, sum3, rot_y; cbn [Nat.eqb]; apply injective_projections;
      unfold Cminus, Cplus, Copp, Cmult, RtoC; cbn [fst snd]; field.
  Qed.
  (** 16133/2500, 3213/1250, 48433/10000: the coefficients of the waves in the
      plane. *)
  Lemma det_rot : forall z, cdet3 (bulkop Cm (RtoC 1) (RtoC 0) z) =
    (- (1 + z * z) * (RtoC (16133 / 2500) * z * z * z * z - RtoC (3213 / 1250) * z * z * z + RtoC (48433 / 10000) * z * z
                       + RtoC (3213 / 1250) * z + RtoC (16133 / 2500)))%C.
  Proof.
    intros z. unfold cdet3. rewrite !M_rot by lia. destruct z as [a b].
    apply injective_projections; unfold Cminus, Cplus, Copp, Cmult, RtoC; cbn [fst snd]; field.
  Qed.

  Lemma det_sample : forall x, cdet3 (bulkop Cm (RtoC 1) (RtoC 0) (Ci * RtoC x)%C) =
    (- (1 - x * x) * (16133 / 2500 * (x * x * x * x) - 48433 / 10000 * (x * x) + 16133 / 2500), - (1 - x * x) * (3213 / 1250 * x * (x * x + 1))).
  Proof.
    intros x. rewrite det_rot. replace (Ci * RtoC x)%C with ((0, x) : C) by (apply injective_projections; cbn; ring).
    apply injective_projections; unfold Cminus, Cplus, Copp, Cmult, RtoC; cbn [fst snd]; field.
  Qed.

  Variable solve : nat -> nat -> cmx -> cmx -> res cmx.
  Variable roots : list C -> list C.
  Hypothesis Hs : solve_ok solve.
  Hypothesis Hr : roots_ok roots.

  Lemma fit_rot : forall p, solve 4%nat 1%nat sample_A (sample_b Cm 1 0) = Ret p ->
    p 0%nat 0%nat = (16133 / 2500, 1071 / 2500) /\ p 1%nat 0%nat = (- 112965 / 10000, 1071 / 250) /\
    p 2%nat 0%nat = (112965 / 10000, - 11781 / 2500) /\ p 3%nat 0%nat = (- 16133 / 2500, 0).
  Proof.
    intros p E. apply Hs in E. destruct E as [_ E].
    assert (P : forall k, (k < 4)%nat -> p k 0%nat = Csum 4 (fun a => RtoC (inv4 k a) * sample_b Cm 1 0 a 0%nat)%C).
    { intros k Hk. rewrite (Csum_ext 4 _ (fun a => Csum 4 (fun b => RtoC (inv4 k a) * sample_A a b * p b 0%nat)%C)).
      2: { intros a Ha. rewrite <- (E a 0%nat Ha ltac:(lia)). unfold cprod. rewrite <- Csum_scal. apply Csum_ext. intros; ring. }
      rewrite Csum_swap. rewrite (Csum_ext 4 _ (fun b => if Nat.eqb b k then p b 0%nat else RtoC 0)).
      - rewrite (Csum_delta 4 k (fun b => p b 0%nat)) by exact Hk. reflexivity.
      - intros b Hb. rewrite Csum_scal_r, (proj2 (sample_inv k b Hk Hb)), (Nat.eqb_sym b k). destruct (Nat.eqb k b); ring. }
    repeat match goal with |- _ /\ _ => split end; rewrite P by lia; unfold sample_b, inv4; cbn [Csum nth]; rewrite !det_sample;
      replace (INR 0) with 0 by reflexivity; replace (INR 1) with 1 by reflexivity; replace (INR 2) with 2 by (cbn; ring); replace (INR 3) with 3 by (cbn; ring);
      apply injective_projections; unfold Cplus, Cmult, RtoC; cbn [fst snd]; lra.
  Qed.

  (** The only value found that belongs to a plane wave is 1. *)
  Lemma eigenvalue_rot : forall qs Q, find_eigenvalues solve roots Cm 1 0 = Ret qs -> In Q qs ->
    cdet3 (bulkop Cm (RtoC 1) (RtoC 0) (- Ci * Q)%C) = RtoC 0 -> Q = RtoC 1.
  Proof.
    intros qs Q E HQ D. unfold find_eigenvalues in E.
    destruct (solve 4%nat 1%nat sample_A (sample_b Cm 1 0)) as [p|e] eqn:ES; [|discriminate]. cbn [bind] in E. injection E as <-.
    apply in_map_iff in HQ. destruct HQ as (r & <- & Hin). apply Hr in Hin. destruct (fit_rot p ES) as (P0 & P1 & P2 & P3).
    rewrite P0, P1, P2, P3 in Hin. assert (Re := csqrt_fst r). rewrite <- (csqrt_sq r) in Hin. set (Q := csqrt r) in *. clearbody Q.
    rewrite det_rot in D.
    set (k := RtoC (16133 / 2500)) in *. set (w := RtoC (3213 / 1250)) in *. set (d := RtoC (48433 / 10000)) in *.
    assert (I2 : (Ci * Ci = - RtoC 1)%C) by (apply injective_projections; cbn; ring).
    assert (Q0 : (16133 / 2500, 1071 / 2500) = (k + Ci * w / RtoC 6)%C).
    { apply injective_projections; unfold k, w; cbn; field. }
    assert (Q1 : (- 112965 / 10000, 1071 / 250) = (- d - k + (1 + 1 + 1 + 1 + 1 + 1 + 1 + 1 + 1 + 1) * Ci * w / RtoC 6)%C).
    { apply injective_projections; unfold k, w, d; cbn; field. }
    assert (Q2 : (112965 / 10000, - 11781 / 2500) = (d + k - (1 + 1 + 1 + 1 + 1 + 1 + 1 + 1 + 1 + 1 + 1) * Ci * w / RtoC 6)%C).
    { apply injective_projections; unfold k, w, d; cbn; field. }
    assert (Q3 : (- 16133 / 2500, 0) = (- k)%C).
    { apply injective_projections; unfold k; cbn; field. }
    rewrite Q0, Q1, Q2, Q3 in Hin.
    set (s := (Ci * w / RtoC 6)%C) in *.
    assert (N6 : RtoC 6 <> RtoC 0) by (intro X6; apply RtoC_inj in X6; lra).
    assert (Sw : (Ci * w = (1 + 1 + 1 + 1 + 1 + 1) * s)%C).
    { unfold s. replace (1 + 1 + 1 + 1 + 1 + 1)%C with (RtoC 6) by (rewrite <- !RtoC_plus; f_equal; ring). field. exact N6. }
    assert (F1 : ((Q * Q - 1) * (k * (Q * Q) * (Q * Q) - d * (Q * Q) + k + s * (Q * Q) * (Q * Q + (1 + 1 + 1 + 1 + 1 + 1 + 1 + 1 + 1 + 1 + 1))) = RtoC 0)%C).
    { rewrite <- Hin. unfold s. field. exact N6. }
    assert (F2 : ((Q * Q - 1) * (k * (Q * Q) * (Q * Q) - d * (Q * Q) + k - (1 + 1 + 1 + 1 + 1 + 1) * s * Q * (Q * Q + 1)) = RtoC 0)%C).
    { rewrite <- D, <- Sw. ring [I2]. }
    destruct (Ceq_dec (Q * Q - 1)%C (RtoC 0)) as [Z|Z].
    - destruct (Cint (Q - 1)%C (Q + 1)%C) as [Y|Y].
      + rewrite <- Z. ring.
      + replace Q with (Q - 1 + 1)%C by ring. rewrite Y. ring.
      + exfalso. apply (f_equal fst) in Y. cbn in Y. lra.
    - exfalso. destruct (Cint _ _ F1) as [Y|Y]; [contradiction|]. destruct (Cint _ _ F2) as [Y'|Y']; [contradiction|].
      assert (F3 : (s * Q * ((Q + 1) * ((Q + 1 + 1) * (Q + 1 + 1 + 1))) = RtoC 0)%C).
      { match type of Y with (?a = _)%C => match type of Y' with (?b = _)%C => transitivity (a - b)%C; [ring|rewrite Y, Y'; ring] end end. }
      assert (Ns : s <> RtoC 0).
      { unfold s. intro X. apply (f_equal snd) in X. unfold w in X. cbn in X. lra. }
      destruct (Cint _ _ F3) as [X|X].
      + destruct (Cint _ _ X) as [X'|X']; [contradiction|]. rewrite X' in Y.
        assert (K0 : k = RtoC 0) by (etransitivity; [|exact Y]; ring). apply (f_equal fst) in K0. unfold k in K0. cbn in K0. lra.
      + destruct (Cint _ _ X) as [X'|X']; [|destruct (Cint _ _ X') as [X''|X'']].
        * apply (f_equal fst) in X'. cbn in X'. lra.
        * apply (f_equal fst) in X''. cbn in X''. lra.
        * apply (f_equal fst) in X''. cbn in X''. lra.
  Qed.

  Variable null_space : cmx -> list (nat -> C).
  Hypothesis Hn : null_ok null_space.

  Lemma kernel_det : forall M v, kernel M v -> (exists l, (l < 3)%nat /\ v l <> RtoC 0) -> cdet3 M = RtoC 0.
  Proof.
    intros M v K (l & Hl & N). assert (K0 := K 0%nat ltac:(lia)). assert (K1 := K 1%nat ltac:(lia)). assert (K2 := K 2%nat ltac:(lia)).
    unfold csum3 in K0, K1, K2.
    assert (D : (cdet3 M * v l = RtoC 0)%C).
    { idx Hl.
      - transitivity ((M 0%nat 0%nat * v 0%nat + M 0%nat 1%nat * v 1%nat + M 0%nat 2%nat * v 2%nat) * adj3 M 0%nat 0%nat
                    + (M 1%nat 0%nat * v 0%nat + M 1%nat 1%nat * v 1%nat + M 1%nat 2%nat * v 2%nat) * adj3 M 0%nat 1%nat
                    + (M 2%nat 0%nat * v 0%nat + M 2%nat 1%nat * v 1%nat + M 2%nat 2%nat * v 2%nat) * adj3 M 0%nat 2%nat)%C;
          [unfold cdet3, adj3; ring|rewrite K0, K1, K2; ring].
      - transitivity ((M 0%nat 0%nat * v 0%nat + M 0%nat 1%nat * v 1%nat + M 0%nat 2%nat * v 2%nat) * adj3 M 1%nat 0%nat
                    + (M 1%nat 0%nat * v 0%nat + M 1%nat 1%nat * v 1%nat + M 1%nat 2%nat * v 2%nat) * adj3 M 1%nat 1%nat
                    + (M 2%nat 0%nat * v 0%nat + M 2%nat 1%nat * v 1%nat + M 2%nat 2%nat * v 2%nat) * adj3 M 1%nat 2%nat)%C;
          [unfold cdet3, adj3; ring|rewrite K0, K1, K2; ring].
      - transitivity ((M 0%nat 0%nat * v 0%nat + M 0%nat 1%nat * v 1%nat + M 0%nat 2%nat * v 2%nat) * adj3 M 2%nat 0%nat
                    + (M 1%nat 0%nat * v 0%nat + M 1%nat 1%nat * v 1%nat + M 1%nat 2%nat * v 2%nat) * adj3 M 2%nat 1%nat
                    + (M 2%nat 0%nat * v 0%nat + M 2%nat 1%nat * v 1%nat + M 2%nat 2%nat * v 2%nat) * adj3 M 2%nat 2%nat)%C;
          [unfold cdet3, adj3; ring|rewrite K0, K1, K2; ring]. }
    destruct (Cint _ _ D) as [X|X]; [exact X|contradiction].
  Qed.

  Lemma no_greens1_rot : forall M, greens_function1 solve roots null_space Cm None 1 0 None <> Ret M.
  Proof.
    intros M H. unfold greens_function1 in H. cbn [andb] in H. unfold make_U_and_F in H.
    destruct (find_eigenvalues solve roots Cm 1 0) as [q0|e] eqn:E0; [|discriminate]. cbn [bind mode_list] in H.
    set (qzl := map (fun z => - Ci * z)%C q0) in *.
    destruct (find_eigenvectors null_space Cm 1 0 qzl) as [eta|e] eqn:E1; [|discriminate]. cbn [bind] in H.
    destruct (make_F Cm 1 0 qzl eta None) as [F|e] eqn:E2; [|discriminate]. cbn [bind] in H.
    unfold find_eigenvectors in E1. apply seq_res_all in E1. destruct E1 as [L1 N1].
    unfold make_F in E2. destruct (Nat.ltb_spec (length qzl) 3) as [X|X]; [discriminate|].
    destruct (Nat.ltb_spec 3 (length qzl)) as [Y|Y]; cbn [andb] in E2; [discriminate|]. injection E2 as E2.
    assert (L3 : length qzl = 3%nat) by lia. rewrite L3 in *.
    assert (All : forall a, (a < 3)%nat -> mode_qz qzl a = (- Ci * RtoC 1)%C).
    { intros a Ha. unfold mode_qz. assert (N := N1 a (RtoC 0) (fun _ => RtoC 0) Ha).
      assert (IN : In (nth a qzl (RtoC 0)) qzl) by (apply nth_In; lia).
      unfold qzl in IN at 2. apply in_map_iff in IN. destruct IN as (z & Ez & Hz). rewrite <- Ez in *.
      rewrite (eigenvalue_rot q0 z E0 Hz); [reflexivity|].
      unfold find_eigenvector in N. destruct (null_space (bulkop Cm (RtoC 1) (RtoC 0) (- Ci * z)%C)) as [|v [|v' l]] eqn:NS; try discriminate.
      destruct (Hn _ _ NS) as (V1 & V2 & _). exact (kernel_det _ v V2 V1). }
    assert (Et : mode_eta eta 0 = mode_eta eta 1).
    { assert (N0 := N1 0%nat (RtoC 0) (fun _ => RtoC 0) ltac:(lia)). assert (N2 := N1 1%nat (RtoC 0) (fun _ => RtoC 0) ltac:(lia)).
      fold (mode_qz qzl 0) in N0. fold (mode_qz qzl 1) in N2. rewrite All in N0, N2 by lia. rewrite N0 in N2. injection N2 as N2. exact N2. }
    apply Hs in H. destruct H as ((Ai & A1 & _) & _).
    assert (Z0 := A1 0%nat 0%nat ltac:(lia) ltac:(lia)). assert (Z1 := A1 1%nat 0%nat ltac:(lia) ltac:(lia)). cbn [Nat.eqb] in Z0, Z1.
    assert (Eq : forall i, (i < 3)%nat -> F i 0%nat = F i 1%nat).
    { intros i Hi. rewrite <- E2. destruct (Nat.ltb_spec i 3); [|lia]. rewrite !All, Et by lia. reflexivity. }
    unfold cprod, transpose in Z0, Z1. rewrite (Csum_ext 3 _ (fun k => F k 1%nat * Ai k 0%nat)%C) in Z0 by (intros k Hk; rewrite Eq by exact Hk; reflexivity).
    rewrite Z1 in Z0. apply (f_equal fst) in Z0. cbn in Z0. lra.
  Qed.
End Crystal.
