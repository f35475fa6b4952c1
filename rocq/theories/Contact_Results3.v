(** * Loads, and the response of waves *)
From Coq Require Import Reals ZArith Lia Lra List Arith Bool String FunctionalExtensionality.
From Coquelicot Require Import Complex Coquelicot.
From Verif Require Import Py FFT_Base HalfSpace_Model HalfSpace_Spec HalfSpace_Proofs HalfSpace_Results
  HalfSpace_Results2 HalfSpace_Results3 Free_Model Free_Spec Free_Proofs Systems_Model Systems_Spec Systems_Proofs Factory_Model
  Pipeline_Model Pipeline_Spec Pipeline_Results Pipeline_More Prop_Pipeline Contact_Model Contact_Spec Contact_Proofs Contact_Results
  Contact_Results2.
From Verif Require CCG_Model CCG_Real CCG_Spec CCG_Proofs CCG_Results CCG_Results2.
From Coq Require Import List.
Import ListNotations.
Local Open Scope R_scope.

Lemma lsum_filter_if : forall P (l : list P) m v,
  CCG_Real.lsum (filter m l) v = CCG_Real.lsum l (fun p => if m p then v p else 0).
Proof.
  intros P l m v. unfold CCG_Real.lsum. induction l as [|p l IH]; [reflexivity|]. cbn [filter map fold_right].
  destruct (m p); cbn [map fold_right]; rewrite IH; ring.
Qed.

(** The sum of the forces of the result object. *)
Lemma total_jac : forall o name g sizes sb sf hd force off pt (r : CCG_Model.sresult),
  make_half_space name g sizes = Ret sb ->
  CCG_Spec.total (solver_cfg o sb sf hd force off pt) r = asum (o_jac (result_object sb r)).
Proof.
  intros o name g sizes sb sf hd force off pt r HS. destruct (half_space_shapes _ _ _ _ HS) as (SG & CS & SL & LX & LY & PX & PY).
  destruct (half_space_inv _ _ _ _ HS) as (_ & _ & L & _).
  unfold CCG_Spec.total. rewrite cfg_grid, lsum_filter_if.
  cbn [result_object o_jac]. rewrite CS, asum_grid by (repeat split; assumption).
  rewrite sum_points. unfold HalfSpace_Spec.total. rewrite <- (Rsum2_pad (gx g) (gy g) (gx (sb_sub sb)) (gy (sb_sub sb))) by assumption.
  apply Rsum2_ext. intros x y Hx Hy. rewrite !(write_in _ _ _ _ _ _ (conj Hx Hy)).
  unfold solver_cfg. cbn [CCG_Model.c_slice CCG_Model.c_masked negb]. rewrite andb_true_r, CS. reflexivity.
Qed.

Lemma solver_force : forall o name g sizes sb sf hd sa r f, make_half_space name g sizes = Ret sb -> nonneg hd ->
  ccg_solver o sb sf hd sa = Ret r -> sa_force sa = Some f -> o_success r = true ->
  asum (o_jac r) <> 0 /\ Rabs ((asum (o_jac r) - f) / asum (o_jac r)) < op_thermotol o.
Proof.
  intros o name g sizes sb sf hd sa r f HS Hh H F S1. destruct (solver_inv _ _ _ _ _ _ H) as (r' & E & ->). rewrite F in E.
  pose proof (fun X => CCG_Results2.force_control _ _ _ f X (cfg_hardness _ _ _ _ _ _ _ Hh) E S1) as K. specialize (K eq_refl).
  rewrite (total_jac o name g sizes) in K by exact HS. exact K.
Qed.

(** ** Waves *)
Lemma wavenumber_neg : forall g lx ly p q, on_grid g p q ->
  wavenumber g lx ly (neg (gx g) p) (neg (gy g) q) = wavenumber g lx ly p q.
Proof.
  intros g lx ly p q [Hp Hq]. unfold wavenumber.
  assert (M : forall n k, (k < n)%nat -> Nat.min (neg n k) (n - neg n k) = Nat.min k (n - k)).
  { intros n k K. unfold neg. destruct (Nat.eq_dec k 0) as [->|Z].
    - rewrite Nat.sub_0_r, Nat.mod_same by lia. lia.
    - rewrite Nat.mod_small by lia. lia. }
  rewrite !M by assumption. reflexivity.
Qed.

Section Waves.
  Variables (g : list nat) (lx ly : R) (p q : nat) (phi : R).
  Hypothesis PX : (0 < gx g)%nat.
  Hypothesis PY : (0 < gy g)%nat.
  Hypothesis PQ : on_grid g p q.
  Hypothesis NZ : ~ (p = 0 /\ q = 0)%nat.

  Lemma wave_fft : forall A c k l, on_grid g k l ->
    fft2 (gx g) (gy g) (fun x y => A * plane_wave g p q phi x y + c) k l
    = (RtoC A * fft2 (gx g) (gy g) (plane_wave g p q phi) k l
       + RtoC c * (if is_00 k l then RtoC (npts (gx g) (gy g)) else RtoC 0))%C.
  Proof.
    intros A c k l [Hk Hl]. rewrite <- (fft2_one _ _ PX PY k l Hk Hl), <- fft2_lin. apply fft2_ext. intros. ring.
  Qed.
  Lemma wave_support : forall k l, on_grid g k l -> fft2 (gx g) (gy g) (plane_wave g p q phi) k l <> RtoC 0 ->
    wavenumber g lx ly k l = wavenumber g lx ly p q.
  Proof.
    intros k l [Hk Hl] H. change (plane_wave g p q phi) with (wave (gx g) (gy g) p q phi) in H.
    rewrite fft2_wave in H by (try assumption; apply PQ).
    destruct (andb (Nat.eqb k p) (Nat.eqb l q)) eqn:E1.
    - apply andb_true_iff in E1. destruct E1 as [E1 E2]. apply Nat.eqb_eq in E1, E2. subst. reflexivity.
    - destruct (andb (Nat.eqb k (neg (gx g) p)) (Nat.eqb l (neg (gy g) q))) eqn:E2.
      + apply andb_true_iff in E2. destruct E2 as [E2 E3]. apply Nat.eqb_eq in E2, E3. subst. apply wavenumber_neg. exact PQ.
      + exfalso. apply H. rewrite Cplus_0_r. ring.
  Qed.
  Lemma wave_mean : fft2 (gx g) (gy g) (plane_wave g p q phi) 0%nat 0%nat = RtoC 0.
  Proof.
    change (plane_wave g p q phi) with (wave (gx g) (gy g) p q phi). rewrite fft2_wave by (try assumption; apply PQ).
    assert (Z : forall n k, (k < n)%nat -> (0 =? neg n k)%nat = (0 =? k)%nat).
    { intros n k K. unfold neg. destruct (Nat.eq_dec k 0) as [->|Z].
      - rewrite Nat.sub_0_r, Nat.mod_same by lia. reflexivity.
      - rewrite Nat.mod_small by lia. destruct (Nat.eqb_spec 0 (n - k)), (Nat.eqb_spec 0 k); lia || reflexivity. }
    rewrite !Z by apply PQ.
    assert (E : ((0 =? p)%nat && (0 =? q)%nat)%bool = false).
    { destruct (Nat.eqb_spec 0 p), (Nat.eqb_spec 0 q); try reflexivity. exfalso. apply NZ. split; congruence. }
    rewrite E. rewrite Cplus_0_r. ring.
  Qed.

  (** A wave on top of a uniform displacement and its pressure. *)
  Lemma wave_average : forall B d, mean g (fun x y => B * plane_wave g p q phi x y + d) = d.
  Proof.
    intros B d. unfold mean.
    assert (E : RtoC (HalfSpace_Spec.total g (fun x y => B * plane_wave g p q phi x y + d)) = RtoC (d * npts (gx g) (gy g))).
    { unfold HalfSpace_Spec.total. rewrite <- fft2_00. rewrite wave_fft by (split; assumption). rewrite wave_mean.
      cbn [is_00 Nat.eqb andb]. unfold is_00. cbn [Nat.eqb andb]. rewrite RtoC_mult. ring. }
    apply RtoC_inj in E. rewrite E. unfold npts.
    pose proof (lt_0_INR _ PX). pose proof (lt_0_INR _ PY). field. lra.
  Qed.

  Lemma wave_response : forall A c, 0 < wavenumber g lx ly p q ->
    0 < wavenumber g lx ly 1 0 + wavenumber g lx ly 0 1 ->
    (forall k l, on_grid g k l -> ~ (k = 0 /\ l = 0)%nat -> 0 < wavenumber g lx ly k l) ->
    periodic_response g lx ly
      (fun x y => wavenumber g lx ly p q / 2 * A * plane_wave g p q phi x y
                  + (wavenumber g lx ly 1 0 + wavenumber g lx ly 0 1) / 4 * c)
      (fun x y => A * plane_wave g p q phi x y + c).
  Proof.
    intros A c W K WP. split.
    - intros k l G Z. rewrite !wave_fft by exact G.
      assert (E : is_00 k l = false).
      { unfold is_00. destruct (Nat.eqb_spec k 0), (Nat.eqb_spec l 0); try reflexivity. exfalso. auto. }
      rewrite E. destruct (Ceq_dec (fft2 (gx g) (gy g) (plane_wave g p q phi) k l) (RtoC 0)) as [F|F].
      + rewrite F. ring.
      + rewrite (wave_support k l G F), !Cmult_0_r, !Cplus_0_r, Cmult_assoc, <- RtoC_mult. f_equal. f_equal. field. lra.
    - rewrite !wave_average. field. lra.
  Qed.
End Waves.
