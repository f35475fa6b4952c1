(** * The anisotropic Green's function: decay, symmetry, exceptional cases *)

From Coq Require Import Reals Lra Lia Psatz FunctionalExtensionality.
From Coquelicot Require Import Coquelicot.
From Verif Require Import Py FFT_Base GreenwoodTripp_Model GreenwoodTripp_Proofs Isotropic_Proofs Elasticity_Spec Anisotropic_Spec
  Anisotropic_Model Anisotropic_Tensor Anisotropic_Field Anisotropic_Proofs.
From Coq Require Import List.
Import ListNotations.
Local Open Scope R_scope.

Section Decay.
  Variables C11 C12 C44 : R.
  Hypothesis H44 : 0 < C44.
  Hypothesis H1 : 0 < C11 - C12.
  Hypothesis H2 : 0 < C11 + 2 * C12.
  Variable Rm : rmat.
  Hypothesis Horth : orthogonal Rm.
  Variable Cm : rmat.
  Hypothesis HC : forall i j k l, (i < 3)%nat -> (j < 3)%nat -> (k < 3)%nat -> (l < 3)%nat ->
    elasticity_tensor Cm i j k l = T0 C11 C12 C44 Rm i j k l.

  Definition rq (qx qy t : R) (k : nat) : R := match k with 0%nat => qx | 1%nat => qy | _ => t end.
  Lemma kernel_real : forall (p : C -> R) qx qy t v,
    (forall a b, p (a + b)%C = p a + p b) -> (forall r a, p (RtoC r * a)%C = r * p a) -> p (RtoC 0) = 0 ->
    kernel (bulkop Cm (RtoC qx) (RtoC qy) (RtoC t)) v ->
    forall i, (i < 3)%nat ->
      sum3 (fun j => sum3 (fun k => sum3 (fun l => elasticity_tensor Cm i j k l * rq qx qy t j * rq qx qy t k * p (v l)))) = 0.
  Proof.
    intros p qx qy t v Pp Ps P0 K i Hi. specialize (K i Hi).
    assert (E : csum3 (fun j => csum3 (fun k => csum3 (fun l =>
       (RtoC (elasticity_tensor Cm i j k l * rq qx qy t j * rq qx qy t k) * v l)%C))) = RtoC 0).
    { transitivity (- csum3 (fun l => bulkop Cm (RtoC qx) (RtoC qy) (RtoC t) i l * v l))%C.
      - unfold bulkop, csum3, qvec, rq. rewrite !RtoC_mult. ring.
      - rewrite K. ring. }
    apply (f_equal p) in E. rewrite P0 in E. rewrite <- E. unfold csum3, sum3. rewrite !Pp, !Ps. reflexivity.
  Qed.
  Lemma real_kernel : forall (p : C -> R) qx qy t v, (qx <> 0 \/ qy <> 0 \/ t <> 0) ->
    (forall a b, p (a + b)%C = p a + p b) -> (forall r a, p (RtoC r * a)%C = r * p a) -> p (RtoC 0) = 0 ->
    kernel (bulkop Cm (RtoC qx) (RtoC qy) (RtoC t)) v -> forall l, (l < 3)%nat -> p (v l) = 0.
  Proof.
    intros p qx qy t v Hq Pp Ps P0 K l Hl. pose proof (kernel_real p qx qy t v Pp Ps P0 K) as E.
    assert (A : acoustic_form C11 C12 C44 Rm (fun k => p (v k)) (rq qx qy t) = 0).
    { unfold acoustic_form.
      transitivity (sum3 (fun i => p (v i) * sum3 (fun j => sum3 (fun k => sum3 (fun l => elasticity_tensor Cm i j k l * rq qx qy t j * rq qx qy t k * p (v l)))))).
      - unfold sum3. rewrite !HC by lia. ring.
      - unfold sum3 at 1. rewrite !E by lia. ring. }
    apply (acoustic_definite C11 C12 C44 H44 H1 H2 Rm Horth) in A. apply Rmult_integral in A.
    destruct A as [A|A].
    - unfold sum3 in A. idx Hl; nra.
    - exfalso. unfold sum3, rq in A. destruct Hq as [Hq|[Hq|Hq]]; nra.
  Qed.
  (** Strictly evanescent modes. *)
  Lemma mode_complex : forall qx qy qz v, (qx <> 0 \/ qy <> 0 \/ qz <> RtoC 0) ->
    kernel (bulkop Cm (RtoC qx) (RtoC qy) qz) v -> (exists l, (l < 3)%nat /\ v l <> RtoC 0) -> snd qz <> 0.
  Proof.
    intros qx qy [t b] v Hq K (l & Hl & N) E. cbn [snd] in E. subst b. change ((t, 0) : C) with (RtoC t) in *.
    assert (Hq' : qx <> 0 \/ qy <> 0 \/ t <> 0).
    { destruct Hq as [Hq|[Hq|Hq]]; auto. right. right. intro T. apply Hq. rewrite T. reflexivity. }
    apply N. apply injective_projections.
    - apply (real_kernel fst qx qy t v Hq'); [intros; reflexivity|intros; cbn; ring|reflexivity|exact K|exact Hl].
    - apply (real_kernel snd qx qy t v Hq'); [intros; reflexivity|intros; cbn; ring|reflexivity|exact K|exact Hl].
  Qed.
  (** With a vanishing wavevector there is no one-dimensional kernel. *)
  Lemma zero_wavevector : forall qz v, kernel (bulkop Cm (RtoC 0) (RtoC 0) qz) v ->
    (exists l, (l < 3)%nat /\ v l <> RtoC 0) ->
    (forall w, kernel (bulkop Cm (RtoC 0) (RtoC 0) qz) w -> exists c, forall i, (i < 3)%nat -> w i = (c * v i)%C) -> False.
  Proof.
    intros qz v K N S.
    destruct (Ceq_dec qz (RtoC 0)) as [->|Z].
    - assert (A : forall w, kernel (bulkop Cm (RtoC 0) (RtoC 0) (RtoC 0)) w).
      { intros w i _. unfold bulkop, csum3, qvec. ring. }
      destruct (S (fun i => if Nat.eqb i 0 then RtoC 1 else RtoC 0) (A _)) as [c Hc].
      destruct (S (fun i => if Nat.eqb i 1 then RtoC 1 else RtoC 0) (A _)) as [d Hd].
      assert (c0 := Hc 0%nat ltac:(lia)). assert (c1 := Hc 1%nat ltac:(lia)).
      assert (d0 := Hd 0%nat ltac:(lia)). assert (d1 := Hd 1%nat ltac:(lia)). cbn in c0, c1, d0, d1.
      assert (X : RtoC 1 = RtoC 0).
      { transitivity ((c * v 0%nat) * (d * v 1%nat))%C; [rewrite <- c0, <- d1; ring|].
        transitivity ((c * v 1%nat) * (d * v 0%nat))%C; [ring|]. rewrite <- c1. ring. }
      apply RtoC_inj in X. lra.
    - assert (K1 : kernel (bulkop Cm (RtoC 0) (RtoC 0) (RtoC 1)) v).
      { intros i Hi. specialize (K i Hi).
        assert (E : (qz * qz * csum3 (fun l => bulkop Cm (RtoC 0) (RtoC 0) (RtoC 1) i l * v l) = RtoC 0)%C).
        { etransitivity; [|exact K]. unfold bulkop, csum3, qvec. ring. }
        destruct (Ceq_dec (csum3 (fun l => bulkop Cm (RtoC 0) (RtoC 0) (RtoC 1) i l * v l)%C) (RtoC 0)) as [W|W]; [exact W|].
        exfalso. revert E. apply Cmult_neq_0; [apply Cmult_neq_0; exact Z|exact W]. }
      apply (mode_complex 0 0 (RtoC 1) v) in N; [apply N; reflexivity| |exact K1].
      right. right. intro E. apply RtoC_inj in E. lra.
  Qed.

  (** Isotropic constants: the kernel is never one-dimensional. *)
  Lemma isotropic_kernel : C11 - C12 = 2 * C44 -> forall qx qy qz v,
    kernel (bulkop Cm (RtoC qx) (RtoC qy) qz) v -> (exists l, (l < 3)%nat /\ v l <> RtoC 0) ->
    (forall w, kernel (bulkop Cm (RtoC qx) (RtoC qy) qz) w -> exists c, forall i, (i < 3)%nat -> w i = (c * v i)%C) -> False.
  Proof.
    intros HI qx qy qz v K N S.
    set (x := RtoC qx) in *. set (y := RtoC qy) in *.
    assert (B : forall i l, (i < 3)%nat -> (l < 3)%nat -> bulkop Cm x y qz i l =
      (- (RtoC (C12 + C44) * qvec x y qz i * qvec x y qz l + RtoC C44 * RtoC (kron i l) * (x * x + y * y + qz * qz)))%C).
    { intros i l Hi Hl. unfold bulkop, csum3. rewrite !HC by lia. rewrite !T_closed.
      assert (P : forall i j, (i < 3)%nat -> (j < 3)%nat -> PP Rm i j = kron i j) by exact Horth.
      rewrite !P by lia. replace (C11 - C12 - 2 * C44) with 0 by lra. rewrite !Rmult_0_l, !Rplus_0_r.
      rewrite !RtoC_plus, !RtoC_mult, !RtoC_plus, !RtoC_mult. idx Hi; idx Hl; unfold kron; cbn [Nat.eqb qvec]; ring. }
    assert (KB : forall w, kernel (bulkop Cm x y qz) w <-> forall i, (i < 3)%nat ->
      (RtoC (C12 + C44) * (x * w 0%nat + y * w 1%nat + qz * w 2%nat) * qvec x y qz i
       + RtoC C44 * (x * x + y * y + qz * qz) * w i = RtoC 0)%C).
    { intro w. split; intros H i Hi; specialize (H i Hi); [|unfold csum3 in *].
      - transitivity (- csum3 (fun l => bulkop Cm x y qz i l * w l))%C; [|rewrite H; ring].
        unfold csum3. rewrite !B by lia. idx Hi; unfold kron; cbn [Nat.eqb qvec]; ring.
      - rewrite !B by lia. transitivity (- RtoC 0)%C; [rewrite <- H|ring]. idx Hi; unfold kron; cbn [Nat.eqb qvec]; ring. }
    assert (L1 : RtoC (C12 + C44) <> RtoC 0) by (intro E; apply RtoC_inj in E; lra).
    assert (L2 : RtoC C44 <> RtoC 0) by (intro E; apply RtoC_inj in E; lra).
    assert (L3 : RtoC (C12 + C44 + C44) <> RtoC 0) by (intro E; apply RtoC_inj in E; lra).
    assert (Q2 := Ceq_dec (x * x + y * y + qz * qz)%C (RtoC 0)). destruct Q2 as [Q2|Q2].
    - (* two independent vectors orthogonal to the wavevector *)
      assert (O : forall w, (x * w 0%nat + y * w 1%nat + qz * w 2%nat = RtoC 0)%C -> kernel (bulkop Cm x y qz) w).
      { intros w Hw. apply KB. intros i _. rewrite Hw, Q2. ring. }
      destruct (S (fun i => match i with 0%nat => y | 1%nat => - x | _ => RtoC 0 end)%C) as [a Ha]; [apply O; ring|].
      destruct (S (fun i => match i with 0%nat => qz | 1%nat => RtoC 0 | _ => - x end)%C) as [b Hb]; [apply O; ring|].
      destruct (S (fun i => match i with 0%nat => RtoC 0 | 1%nat => qz | _ => - y end)%C) as [d Hd]; [apply O; ring|].
      assert (a0 := Ha 0%nat ltac:(lia)). assert (a1 := Ha 1%nat ltac:(lia)). assert (a2 := Ha 2%nat ltac:(lia)).
      assert (b0 := Hb 0%nat ltac:(lia)). assert (b1 := Hb 1%nat ltac:(lia)). assert (b2 := Hb 2%nat ltac:(lia)).
      assert (d0 := Hd 0%nat ltac:(lia)). assert (d1 := Hd 1%nat ltac:(lia)). assert (d2 := Hd 2%nat ltac:(lia)).
      cbn in a0, a1, a2, b0, b1, b2, d0, d1, d2.
      (* minors of the two multiples vanish *)
      assert (Zxx : (x * x = RtoC 0)%C).
      { transitivity ((- x) * (- x) - RtoC 0 * RtoC 0)%C; [ring|]. rewrite a1 at 1. rewrite b2 at 1.
        transitivity ((a * v 2%nat) * (b * v 1%nat) - RtoC 0 * RtoC 0)%C; [ring|]. rewrite <- a2, <- b1. ring. }
      assert (Zyy : (y * y = RtoC 0)%C).
      { transitivity (- (y * (- y)) )%C; [ring|]. rewrite a0 at 1. rewrite d2 at 1.
        transitivity (- ((a * v 2%nat) * (d * v 0%nat)))%C; [ring|]. rewrite <- a2. ring. }
      assert (X0 : x = RtoC 0) by (destruct (Ceq_dec x (RtoC 0)) as [W|W]; [exact W|exfalso; exact (Cmult_neq_0 _ _ W W Zxx)]).
      assert (Y0 : y = RtoC 0) by (destruct (Ceq_dec y (RtoC 0)) as [W|W]; [exact W|exfalso; exact (Cmult_neq_0 _ _ W W Zyy)]).
      assert (qx = 0) by (apply RtoC_inj; exact X0). assert (qy = 0) by (apply RtoC_inj; exact Y0).
      subst qx qy. exact (zero_wavevector qz v K N S).
    - destruct N as (l & Hl & N). apply N. pose proof (proj1 (KB v) K) as E.
      set (dv := (x * v 0%nat + y * v 1%nat + qz * v 2%nat)%C) in *.
      assert (D : dv = RtoC 0).
      { assert (E3 : (RtoC (C12 + C44 + C44) * (x * x + y * y + qz * qz) * dv = RtoC 0)%C).
        { transitivity (x * (RtoC (C12 + C44) * dv * qvec x y qz 0 + RtoC C44 * (x * x + y * y + qz * qz) * v 0%nat)
            + y * (RtoC (C12 + C44) * dv * qvec x y qz 1 + RtoC C44 * (x * x + y * y + qz * qz) * v 1%nat)
            + qz * (RtoC (C12 + C44) * dv * qvec x y qz 2 + RtoC C44 * (x * x + y * y + qz * qz) * v 2%nat))%C.
          - cbn [qvec]. rewrite !RtoC_plus. unfold dv. ring.
          - rewrite !E by lia. ring. }
        destruct (Ceq_dec dv (RtoC 0)) as [W|W]; [exact W|]. exfalso. revert E3.
        apply Cmult_neq_0; [apply Cmult_neq_0; assumption|exact W]. }
      specialize (E l Hl). rewrite D in E.
      destruct (Ceq_dec (v l) (RtoC 0)) as [W|W]; [exact W|]. exfalso.
      assert (E' : (RtoC C44 * (x * x + y * y + qz * qz) * v l = RtoC 0)%C) by (etransitivity; [|exact E]; ring).
      revert E'. apply Cmult_neq_0; [apply Cmult_neq_0; assumption|exact W].
  Qed.
End Decay.
