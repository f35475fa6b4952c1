(** * Elastic fields made of plane waves with complex wavevectors *)

From Coq Require Import Reals Lra Lia Psatz FunctionalExtensionality.
From Coquelicot Require Import Coquelicot.
From Verif Require Import Py FFT_Base Isotropic_Proofs Elasticity_Spec Anisotropic_Spec Anisotropic_Model Anisotropic_Tensor.
From Coq Require Import List.
Local Open Scope R_scope.

Section Modes.
  Variables qx qy : R.

  Definition Wm (qz A : C) : field3 := fun x y z =>
    exp (- snd qz * z) * (fst A * cos (qx * x + qy * y + fst qz * z) - snd A * sin (qx * x + qy * y + fst qz * z)).
  Definition qv (qz : C) (k : nat) : C := qvec (RtoC qx) (RtoC qy) qz k.

  Lemma Wm_dx : forall qz A x y z, is_derive (fun t => Wm qz A t y z) x (Wm qz (Ci * qv qz 0 * A)%C x y z).
  Proof.
    intros. unfold Wm, qv, qvec. auto_derive; [trivial|]. unfold Cmult, Ci, RtoC. cbn [fst snd]. ring.
  Qed.
  Lemma Wm_dy : forall qz A x y z, is_derive (fun t => Wm qz A x t z) y (Wm qz (Ci * qv qz 1 * A)%C x y z).
  Proof.
    intros. unfold Wm, qv, qvec. auto_derive; [trivial|]. unfold Cmult, Ci, RtoC. cbn [fst snd]. ring.
  Qed.
  Lemma Wm_dz : forall qz A x y z, is_derive (fun t => Wm qz A x y t) z (Wm qz (Ci * qv qz 2 * A)%C x y z).
  Proof.
    intros. unfold Wm, qv, qvec. auto_derive; [trivial|]. unfold Cmult, Ci, RtoC. cbn [fst snd]. ring.
  Qed.
  Lemma Wm_plus : forall qz A B x y z, Wm qz (A + B)%C x y z = Wm qz A x y z + Wm qz B x y z.
  Proof. intros. unfold Wm, Cplus. cbn [fst snd]. ring. Qed.
  Lemma Wm_scal : forall qz r A x y z, Wm qz (RtoC r * A)%C x y z = r * Wm qz A x y z.
  Proof. intros. unfold Wm, Cmult, RtoC. cbn [fst snd]. ring. Qed.
  Lemma Wm_0 : forall qz x y z, Wm qz (RtoC 0) x y z = 0.
  Proof. intros. unfold Wm, RtoC. cbn [fst snd]. ring. Qed.
  Lemma Wm_surface : forall qz A x y, Wm qz A x y 0 = wave qx qy A x y.
  Proof. intros. unfold Wm, wave. rewrite !Rmult_0_r, Rplus_0_r, exp_0. ring. Qed.
  (** At a depth [h]. *)
  Lemma Wm_depth : forall qz A x y h, Wm qz A x y (- h) = wave qx qy (cexp (- Ci * qz * RtoC h) * A)%C x y.
  Proof.
    intros [a b] [p r] x y h.
    assert (E : cexp (- Ci * (a, b) * RtoC h)%C = (exp (- b * - h) * cos (a * h), - (exp (- b * - h) * sin (a * h)))).
    { unfold cexp. replace (- Ci * (a, b) * RtoC h)%C with ((- b * - h, - (a * h)) : C)
        by (apply injective_projections; cbn; ring).
      cbn [fst snd]. rewrite cos_neg, sin_neg. f_equal. ring. }
    rewrite E. unfold Wm, wave, Cmult. cbn [fst snd].
    replace (qx * x + qy * y + a * - h) with (qx * x + qy * y + - (a * h)) by ring.
    generalize (qx * x + qy * y). intros th. rewrite cos_plus, sin_plus, cos_neg, sin_neg. ring.
  Qed.
  Lemma wave_plus : forall A B x y, wave qx qy (A + B)%C x y = wave qx qy A x y + wave qx qy B x y.
  Proof. intros. unfold wave, Cplus. cbn [fst snd]. ring. Qed.
  Lemma wave_Csum : forall n A x y, wave qx qy (Csum n A) x y = Rsum n (fun a => wave qx qy (A a) x y).
  Proof.
    intros n A x y. induction n as [|n IH].
    - cbn [Csum Rsum]. unfold wave. cbn. ring.
    - cbn [Csum Rsum]. rewrite <- IH, <- wave_plus. reflexivity.
  Qed.
  Lemma Wm_limit : forall qz A x y, snd qz < 0 -> is_lim (fun z => Wm qz A x y z) m_infty 0.
  Proof.
    intros [a b] A x y Hb. cbn [snd] in Hb.
    set (K := Rabs (fst A) + Rabs (snd A)).
    assert (HK : 0 <= K) by (unfold K; pose proof (Rabs_pos (fst A)); pose proof (Rabs_pos (snd A)); lra).
    assert (L : is_lim (fun z => exp (- b * z)) m_infty 0).
    { apply (is_lim_comp exp (fun z => - b * z) m_infty 0 m_infty); [apply is_lim_exp_m| |exists 0; intros z _; discriminate].
      evar_last; [apply is_lim_scal_l; apply is_lim_id|]. cbn. destruct (Rle_dec 0 (- b)) as [H|H]; [|lra].
      destruct (Rle_lt_or_eq_dec 0 (- b) H); [reflexivity|lra]. }
    apply (is_lim_le_le_loc (fun z => - K * exp (- b * z)) (fun z => K * exp (- b * z))).
    - exists 0. intros z _. unfold Wm. cbn [fst snd]. set (th := qx * x + qy * y + a * z).
      assert (E := exp_pos (- b * z)). assert (B1 := COS_bound th). assert (B2 := SIN_bound th).
      assert (A1 : Rabs (fst A * cos th) <= Rabs (fst A)).
      { rewrite Rabs_mult. rewrite <- (Rmult_1_r (Rabs (fst A))) at 2. apply Rmult_le_compat_l; [apply Rabs_pos|]. apply Rabs_le. lra. }
      assert (A2 : Rabs (snd A * sin th) <= Rabs (snd A)).
      { rewrite Rabs_mult. rewrite <- (Rmult_1_r (Rabs (snd A))) at 2. apply Rmult_le_compat_l; [apply Rabs_pos|]. apply Rabs_le. lra. }
      assert (Bd : - K <= fst A * cos th - snd A * sin th <= K).
      { pose proof (Rle_abs (fst A * cos th)). pose proof (Rle_abs (snd A * sin th)).
        pose proof (Rle_abs (- (fst A * cos th))) as X1. pose proof (Rle_abs (- (snd A * sin th))) as X2.
        rewrite Rabs_Ropp in X1, X2. unfold K. lra. }
      split; [replace (- K * exp (- b * z)) with (exp (- b * z) * - K) by ring|rewrite (Rmult_comm K)];
        apply Rmult_le_compat_l; lra.
    - replace (Finite 0) with (Rbar_mult (- K) 0) by (cbn; f_equal; ring). apply is_lim_scal_l. exact L.
    - replace (Finite 0) with (Rbar_mult K 0) by (cbn; f_equal; ring). apply is_lim_scal_l. exact L.
  Qed.

  (** Sums of modes. *)
  Variable n : nat.
  Variable qz : nat -> C.
  Definition Msum (A : nat -> C) : field3 := fun x y z => Rsum n (fun a => Wm (qz a) (A a) x y z).

  Lemma Rsum_derive : forall m (f : nat -> R -> R) (d : nat -> R) x,
    (forall a, is_derive (f a) x (d a)) -> is_derive (fun t => Rsum m (fun a => f a t)) x (Rsum m d).
  Proof.
    intros m f d x H. induction m as [|m IH].
    - cbn [Rsum]. apply (is_derive_const (K := R_AbsRing) (V := R_NormedModule) 0 x).
    - cbn [Rsum]. apply (is_derive_plus (fun t => Rsum m (fun a => f a t)) (f m)); [exact IH|apply H].
  Qed.
  Definition dM (k : nat) (A : nat -> C) : nat -> C := fun a => (Ci * qv (qz a) k * A a)%C.
  Lemma Msum_diff : forall A, differentiable (Msum A).
  Proof.
    intros A x y z. unfold Msum. split; [|split].
    - eexists. apply (Rsum_derive n (fun a t => Wm (qz a) (A a) t y z)). intros a. apply Wm_dx.
    - eexists. apply (Rsum_derive n (fun a t => Wm (qz a) (A a) x t z)). intros a. apply Wm_dy.
    - eexists. apply (Rsum_derive n (fun a t => Wm (qz a) (A a) x y t)). intros a. apply Wm_dz.
  Qed.
  Lemma Msum_pd : forall k A, (k < 3)%nat -> pd k (Msum A) = Msum (dM k A).
  Proof.
    intros k A Hk. do 3 (apply functional_extensionality; intro). unfold Msum, dM. idx Hk; cbn [pd]; apply is_derive_unique.
    - apply (Rsum_derive n (fun a t => Wm (qz a) (A a) t x0 x1)). intros a. apply Wm_dx.
    - apply (Rsum_derive n (fun a t => Wm (qz a) (A a) x t x1)). intros a. apply Wm_dy.
    - apply (Rsum_derive n (fun a t => Wm (qz a) (A a) x x0 t)). intros a. apply Wm_dz.
  Qed.
  Lemma Msum_plus : forall A B x y z, Msum (fun a => A a + B a)%C x y z = Msum A x y z + Msum B x y z.
  Proof. intros. unfold Msum. rewrite <- Rsum_plus. apply Rsum_ext. intros a _. apply Wm_plus. Qed.
  Lemma Msum_scal : forall r A x y z, Msum (fun a => RtoC r * A a)%C x y z = r * Msum A x y z.
  Proof. intros. unfold Msum. rewrite <- Rsum_scal. apply Rsum_ext. intros a _. apply Wm_scal. Qed.
  Lemma Msum_ext : forall A B, (forall a, (a < n)%nat -> A a = B a) -> Msum A = Msum B.
  Proof.
    intros A B H. do 3 (apply functional_extensionality; intro). unfold Msum. apply Rsum_ext. intros a Ha. rewrite H by exact Ha. reflexivity.
  Qed.
  Lemma Msum_0 : forall A x y z, (forall a, (a < n)%nat -> A a = RtoC 0) -> Msum A x y z = 0.
  Proof.
    intros A x y z H. unfold Msum. rewrite (Rsum_ext n _ (fun _ => 0)); [apply Rsum_0|]. intros a Ha. rewrite H by exact Ha. apply Wm_0.
  Qed.
  Lemma Msum_sum3 : forall (r : nat -> R) (A : nat -> nat -> C) x y z,
    sum3s (fun k => r k * Msum (A k) x y z) = Msum (fun a => csum3 (fun k => (RtoC (r k) * A k a)%C)) x y z.
  Proof.
    intros. unfold sum3s, csum3. rewrite (Msum_plus (fun a => RtoC (r 0%nat) * A 0%nat a + RtoC (r 1%nat) * A 1%nat a)%C), Msum_plus, !Msum_scal. reflexivity.
  Qed.

  Variable Cm : rmat.
  Variable eta : nat -> nat -> C.
  Variable s : nat -> C.
  Definition um (l : nat) : field3 := Msum (fun a => eta a l * s a)%C.
  Definition sm (i j : nat) (a : nat) : C :=
    (csum3 (fun k => csum3 (fun l => (Ci * RtoC (elasticity_tensor Cm i j k l) * qv (qz a) k * eta a l)%C)) * s a)%C.

  Lemma astress_modes : forall i j, astress (elasticity_tensor Cm) um i j = Msum (sm i j).
  Proof.
    intros i j. do 3 (apply functional_extensionality; intro). unfold astress.
    transitivity (sum3s (fun k => 1 * Msum (fun a => csum3 (fun l => (RtoC (elasticity_tensor Cm i j k l) * dM k (fun b => eta b l * s b)%C a)%C)) x x0 x1)).
    - unfold sum3s at 1 3. rewrite !Rmult_1_l. f_equal; [f_equal|];
        (rewrite <- Msum_sum3; unfold um, sum3s; rewrite !Msum_pd by lia; reflexivity).
    - rewrite Msum_sum3. apply Rsum_ext. intros a _. apply (f_equal (fun A => Wm (qz a) A x x0 x1)). unfold sm, csum3, dM. ring.
  Qed.
  Hypothesis Hnull : forall a i, (a < n)%nat -> (i < 3)%nat ->
    csum3 (fun l => bulkop Cm (RtoC qx) (RtoC qy) (qz a) i l * eta a l)%C = RtoC 0.

  Lemma modes_equilibrium : equilibrium (astress (elasticity_tensor Cm) um).
  Proof.
    intros i x y z Hi. rewrite !astress_modes, !Msum_pd by lia.
    rewrite <- Msum_plus, <- Msum_plus. apply Msum_0. intros a Ha. unfold dM.
    transitivity (csum3 (fun l => bulkop Cm (RtoC qx) (RtoC qy) (qz a) i l * eta a l)%C * s a)%C; [|rewrite Hnull by assumption; ring].
    assert (I : (Ci * Ci = - RtoC 1)%C) by (apply injective_projections; cbn; ring).
    unfold sm, bulkop, csum3. fold (qv (qz a)).
    repeat match goal with |- context [qvec ?a ?b ?c ?k] => change (qvec a b c k) with (qv c k) end.
    ring [I].
  Qed.
  Lemma modes_elastic : elastic_field (elasticity_tensor Cm) um
    (fun i x y => wave qx qy (Csum n (sm i 2)) x y).
  Proof.
    constructor.
    - intros i _. apply Msum_diff.
    - intros i j _ _. rewrite astress_modes. apply Msum_diff.
    - exact modes_equilibrium.
    - intros i x y _. rewrite astress_modes, wave_Csum. unfold Msum. apply Rsum_ext. intros a _. apply Wm_surface.
  Qed.
  Lemma um_surface : forall l x y, um l x y 0 = wave qx qy (Csum n (fun a => eta a l * s a)%C) x y.
  Proof. intros. rewrite wave_Csum. unfold um, Msum. apply Rsum_ext. intros a _. apply Wm_surface. Qed.
  Lemma um_depth : forall l x y h, um l x y (- h) = wave qx qy (Csum n (fun a => cexp (- Ci * qz a * RtoC h) * (eta a l * s a))%C) x y.
  Proof. intros. rewrite wave_Csum. unfold um, Msum. apply Rsum_ext. intros a _. apply Wm_depth. Qed.
  Lemma um_decay : (forall a, (a < n)%nat -> snd (qz a) < 0) -> forall l x y, is_lim (fun z => um l x y z) m_infty 0.
  Proof.
    intros H l x y. unfold um, Msum. revert H. generalize (fun a => (eta a l * s a)%C). intros A H.
    clear Hnull. induction n as [|m IH].
    - cbn [Rsum]. apply is_lim_const.
    - cbn [Rsum]. replace (Finite 0) with (Finite (0 + 0)) by (f_equal; ring).
      apply is_lim_plus'; [apply IH; intros; apply H; lia|apply Wm_limit, H; lia].
  Qed.
End Modes.
