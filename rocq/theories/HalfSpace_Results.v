(** * Results on the periodic half-space *)

From Coq Require Import Reals ZArith Lia Lra List Arith Bool.
From Coquelicot Require Import Complex Coquelicot.
From Verif Require Import Py FFT_Base HalfSpace_Model HalfSpace_Spec
  HalfSpace_Proofs Thickness.
Import ListNotations.
Local Open Scope R_scope.

Lemma hs_grid : forall a s, construct a = Ret s -> h_grid (s_hs s) = a_grid a.
Proof.
  intros a s H. destruct (construct_inv a s H) as [Hn _].
  apply zero_thick_q0 in Hn. tauto.
Qed.

Lemma nx_gx : forall a s, construct a = Ret s -> nx (s_hs s) = gx (a_grid a).
Proof. intros a s H. unfold nx. rewrite (hs_grid a s H). reflexivity. Qed.
Lemma ny_gy : forall a s, construct a = Ret s -> ny (s_hs s) = gy (a_grid a).
Proof. intros a s H. unfold ny. rewrite (hs_grid a s H). reflexivity. Qed.

Lemma gx_pos : forall a s, construct a = Ret s ->
  (0 < gx (a_grid a))%nat /\ (0 < gy (a_grid a))%nat.
Proof.
  intros a s H. rewrite <- (nx_gx a s H), <- (ny_gy a s H).
  destruct (construct_inv a s H) as [Hn _]. eapply grid_pos. eassumption.
Qed.

(** ** Positivity of the stiffness *)

Lemma qcoord_pos : forall n s k, (0 < k < n)%nat -> 0 < s -> 0 < qcoord n s k.
Proof.
  intros n s k H Hs. unfold qcoord. destruct (Nat.leb k (n / 2)).
  - apply Rdiv_lt_0_compat; [apply lt_0_INR; lia|assumption].
  - apply Rdiv_lt_0_compat; [|assumption].
    assert (INR k < INR n) by (apply lt_INR; lia). lra.
Qed.

Lemma qabs_pos : forall h k l, (k < nx h)%nat -> (l < ny h)%nat ->
  0 < sx h -> 0 < sy h -> is_00 k l = false -> 0 < qabs h k l.
Proof.
  intros h k l Hk Hl Hx Hy E. unfold qabs. apply sqrt_lt_R0.
  unfold is_00 in E.
  destruct (Nat.eqb_spec k 0) as [K|K].
  - destruct (Nat.eqb_spec l 0) as [L|L]; [discriminate|].
    pose proof (qcoord_pos (ny h) (sy h) l ltac:(lia) Hy). nra.
  - pose proof (qcoord_pos (nx h) (sx h) k ltac:(lia) Hx). nra.
Qed.

Lemma index_ok : forall a s, construct a = Ret s ->
  h_q0 (s_hs s) = None -> eff_thick (s_hs s) = None ->
  (2 <= nx (s_hs s))%nat /\ (dim (s_hs s) = 1%nat \/ (2 <= ny (s_hs s))%nat).
Proof.
  intros a s H Q T. destruct (construct_inv a s H) as [Hn [Hg _]].
  destruct (zero_thick_q0 _ _ Hn) as [_ [_ [_ [Egr _]]]].
  pose proof (grid_pos _ _ Hn) as [G1 G2].
  assert (F1 : fst (fourier_pts (a_grid a)) = (nx (s_hs s) / 2 + 1)%nat)
    by (unfold nx; rewrite Egr; reflexivity).
  assert (F2 : snd (fourier_pts (a_grid a)) = ny (s_hs s))
    by (unfold ny; rewrite Egr; reflexivity).
  assert (N2 : (2 <= nx (s_hs s) / 2 + 1)%nat -> (2 <= nx (s_hs s))%nat).
  { intros L. pose proof (Nat.div_mod (nx (s_hs s)) 2 ltac:(lia)). lia. }
  set (h := s_hs s) in *. unfold compute_greens_function in Hg.
  unfold eff_thick in T.
  destruct (Nat.eqb_spec (dim h) 1) as [D|D].
  - unfold greens_1d in Hg. rewrite Q in Hg. rewrite F1 in Hg.
    destruct (Nat.ltb_spec (nx h / 2 + 1) 2) as [L|L]; [discriminate|].
    split; [apply N2; assumption|left; assumption].
  - unfold greens_2d in Hg. rewrite Q, T, F1, F2 in Hg.
    change (at_origin (0%nat, 0%nat)) with true in Hg.
    destruct (Nat.eqb_spec ((nx h / 2 + 1) * ny h) 0) as [Z|Z]; [nia|].
    destruct (Nat.ltb_spec (nx h / 2 + 1) 2) as [L|L]; [discriminate|].
    destruct (Nat.ltb_spec (ny h) 2) as [L2|L2]; [discriminate|].
    split; [apply N2; assumption|right; assumption].
Qed.

Lemma sigma_pos : forall a s, construct a = Ret s -> pos_args a ->
  forall k l, (k < nx (s_hs s))%nat -> (l < ny (s_hs s))%nat ->
  0 < sigma (s_hs s) k l.
Proof.
  intros a s H Hp k l Hk Hl.
  destruct (construct_inv a s H) as [Hn _].
  pose proof (sizes_pos _ _ Hn Hp) as [Sx Sy].
  pose proof (Estar_pos _ _ Hn Hp) as E.
  pose proof PI_RGT_0 as Hpi.
  pose proof (zero_thick_q0 _ _ Hn) as [Eq [Et [_ [_ [_ [En Ey]]]]]].
  pose proof (index_ok a s H) as IX.
  pose proof (grid_pos _ _ Hn) as [G1 G2].
  destruct Hp as [_ [Hy [Hnu [Ht Hq]]]].
  set (h := s_hs s) in *.
  assert (PE : 0 < PI * h_Estar h) by (apply Rmult_lt_0_compat; lra).
  assert (T : forall t, eff_thick h = Some t -> 0 < t /\ h_poisson h < 1 / 2).
  { intros t T. rewrite En. apply Ht. rewrite <- Et. unfold eff_thick in T.
    destruct (Nat.eqb (dim h) 1); [discriminate|assumption]. }
  unfold sigma. destruct (is_00 k l) eqn:Z.
  - unfold zero_mode. destruct (eff_thick h) as [t|].
    + destruct (T t eq_refl) as [T1 T2]. unfold thick_q0. rewrite Ey, En in *.
      apply Rdiv_lt_0_compat.
      * apply Rmult_lt_0_compat; [apply Rdiv_lt_0_compat; lra|lra].
      * apply Rmult_lt_0_compat; lra.
    + destruct (h_q0 h) as [q|] eqn:Q.
      * destruct (Req_bool_spec q 0) as [Q0|Q0]; [lra|].
        specialize (Hq q (eq_sym Eq)). lra.
      * destruct (IX eq_refl eq_refl) as [I1 I2].
        assert (P1 : 0 < qabs h 1 0) by (apply qabs_pos; auto; lia).
        destruct (Nat.eqb_spec (dim h) 1) as [D|D].
        -- apply Rmult_lt_0_compat; assumption.
        -- destruct I2 as [I2|I2]; [contradiction|].
           assert (P2 : 0 < qabs h 0 1) by (apply qabs_pos; auto; lia).
           apply Rmult_lt_0_compat; lra.
  - assert (Q : 0 < qabs h k l) by (apply qabs_pos; assumption).
    assert (P1 : 0 < PI * h_Estar h * qabs h k l) by (apply Rmult_lt_0_compat; assumption).
    destruct (eff_thick h) as [t|]; [|lra].
    destruct (T t eq_refl) as [T1 T2].
    apply Rmult_lt_0_compat; [assumption|].
    apply Rlt_trans with 1; [lra|]. apply thick_corr_gt_1; [assumption|].
    apply Rmult_lt_0_compat; [assumption|]. nra.
Qed.

Lemma gf_val : forall a s, construct a = Ret s -> pos_args a ->
  forall k l, (k < nx (s_hs s))%nat -> (l < ny (s_hs s))%nat ->
  s_gf s k l = if zeroed (s_hs s) k l then 0 else 1 / sigma (s_hs s) k l.
Proof. intros a s H Hp. apply (gf_form a s H). apply Hp. Qed.

Lemma ss_val : forall a s, construct a = Ret s -> pos_args a ->
  forall k l, (k < nx (s_hs s))%nat -> (l < ny (s_hs s))%nat ->
  s_ss s k l = if zeroed (s_hs s) k l then 0 else sigma (s_hs s) k l.
Proof.
  intros a s H Hp k l Hk Hl.
  destruct (construct_inv a s H) as [_ [_ E]]. rewrite E.
  unfold compute_surface_stiffness. rewrite (gf_val a s H Hp) by assumption.
  pose proof (sigma_pos a s H Hp k l Hk Hl) as P.
  destruct (zeroed (s_hs s) k l).
  - destruct (Req_bool_spec 0 0); [reflexivity|contradiction].
  - destruct (Req_bool_spec (1 / sigma (s_hs s) k l) 0) as [Z|Z].
    + exfalso. assert (0 < 1 / sigma (s_hs s) k l) by (apply Rdiv_lt_0_compat; lra). lra.
    + field. lra.
Qed.

(** ** Removing the mean *)

Section Mean.
  Context (Nx Ny : nat).
  Hypothesis HNx : (0 < Nx)%nat.
  Hypothesis HNy : (0 < Ny)%nat.

  Lemma fft2_one : forall k l, (k < Nx)%nat -> (l < Ny)%nat ->
    fft2 Nx Ny (fun _ _ => 1) k l = if is_00 k l then RtoC (npts Nx Ny) else RtoC 0.
  Proof.
    intros k l Hk Hl.
    transitivity (fft2 Nx Ny (wave Nx Ny 0 0 0) k l).
    { apply fft2_ext. intros. unfold wave. symmetry.
      replace (2 * PI * (INR 0 * INR x / INR Nx + INR 0 * INR y / INR Ny) + 0) with 0.
      - apply cos_0.
      - simpl. unfold Rdiv. ring. }
    rewrite fft2_wave by assumption. rewrite !neg_0 by assumption. rewrite cis_0.
    unfold is_00.
    replace (Cconj (RtoC 1)) with (RtoC 1) by (symmetry; apply Cconj_RtoC).
    destruct (andb (Nat.eqb k 0) (Nat.eqb l 0)).
    - rewrite <- RtoC_plus, <- RtoC_mult. f_equal. field.
    - rewrite <- RtoC_plus, <- RtoC_mult. f_equal. ring.
  Qed.

  Lemma mult_zero_mean : forall f x y, (x < Nx)%nat -> (y < Ny)%nat ->
    mult Nx Ny (fun k l => if is_00 k l then RtoC 0 else RtoC 1) f x y
    = f x y - Rsum2 Nx Ny f / npts Nx Ny.
  Proof.
    intros f. pose proof (npts_pos Nx Ny HNx HNy) as P.
    apply (fft2_inj Nx Ny HNx HNy (mult Nx Ny (fun k l => if is_00 k l then RtoC 0 else RtoC 1) f)
             (fun x y => f x y - Rsum2 Nx Ny f / npts Nx Ny)).
    intros k l Hk Hl.
    rewrite fft2_mult; try assumption.
    2:{ intros a b Ha Hb. rewrite is_00_neg by assumption.
        destruct (is_00 a b); rewrite Cconj_RtoC; reflexivity. }
    rewrite (fft2_ext Nx Ny (fun x y => f x y - Rsum2 Nx Ny f / npts Nx Ny)
       (fun x y => 1 * f x y + (- (Rsum2 Nx Ny f / npts Nx Ny)) * 1)) by (intros; ring).
    rewrite (fft2_lin Nx Ny 1 (- (Rsum2 Nx Ny f / npts Nx Ny)) f (fun _ _ => 1)).
    rewrite fft2_one by assumption.
    destruct (is_00 k l) eqn:Z.
    - unfold is_00 in Z. apply andb_prop in Z. destruct Z as [Z1 Z2].
      apply Nat.eqb_eq in Z1. apply Nat.eqb_eq in Z2. subst.
      rewrite fft2_00. rewrite <- !RtoC_mult, <- RtoC_plus. f_equal. field. lra.
    - rewrite Cmult_0_r. ring.
  Qed.
End Mean.

(** ** C20 *)

Lemma mult_scal_r : forall Nx Ny G c f x y, (0 < Nx)%nat -> (0 < Ny)%nat ->
  Herm Nx Ny G -> (x < Nx)%nat -> (y < Ny)%nat ->
  mult Nx Ny G (fun x y => c * f x y) x y = c * mult Nx Ny G f x y.
Proof.
  intros. rewrite (mult_ext Nx Ny G _ (fun x y => c * f x y + 0 * f x y)).
  - rewrite mult_lin by assumption. ring.
  - intros. ring.
Qed.

Definition removed_mean (a : args) (f : field) : R :=
  match a_q0 a with
  | Some q => if Req_EM_T q 0 then mean (a_grid a) f else 0
  | None => 0
  end.

Lemma zeroed_case : forall a s f, construct a = Ret s ->
  forall x y, on_grid (a_grid a) x y ->
  mult (nx (s_hs s)) (ny (s_hs s))
       (fun k l => RtoC (if zeroed (s_hs s) k l then 0 else 1)) f x y
  = f x y - removed_mean a f.
Proof.
  intros a s f H x y Hg.
  destruct (construct_inv a s H) as [Hn _].
  pose proof (grid_pos _ _ Hn) as [G1 G2].
  destruct (zero_thick_q0 _ _ Hn) as [Eq _].
  unfold on_grid in Hg. rewrite <- (nx_gx a s H), <- (ny_gy a s H) in Hg.
  unfold removed_mean, mean, total. rewrite <- (nx_gx a s H), <- (ny_gy a s H).
  rewrite <- Eq. unfold zeroed, Req_bool.
  destruct (h_q0 (s_hs s)) as [q|].
  - destruct (Req_EM_T q 0).
    + fold (npts (nx (s_hs s)) (ny (s_hs s))).
      rewrite <- mult_zero_mean by tauto.
      apply mult_ext_G. intros. rewrite andb_true_r.
      destruct (is_00 k l); reflexivity.
    + rewrite Rminus_0_r.
      transitivity (mult (nx (s_hs s)) (ny (s_hs s)) (fun _ _ => RtoC 1) f x y);
        [|apply mult_1; tauto].
      apply mult_ext_G. intros. rewrite andb_false_r. reflexivity.
  - rewrite Rminus_0_r.
    transitivity (mult (nx (s_hs s)) (ny (s_hs s)) (fun _ _ => RtoC 1) f x y);
        [|apply mult_1; tauto].
    apply mult_ext_G. intros. rewrite andb_false_r. reflexivity.
Qed.

Lemma mult_ext2 : forall Nx Ny G H f x y, (0 < Nx)%nat ->
  (forall k l, (k < Nx)%nat -> (l < Ny)%nat -> G k l = H k l) ->
  mult Nx Ny G f x y = mult Nx Ny H f x y.
Proof.
  intros. apply mult_ext_G. intros. apply H1; [|assumption].
  assert (Nx / 2 < Nx)%nat by (apply Nat.div_lt; lia). lia.
Qed.

Lemma force_of_disp : forall a s f, construct a = Ret s -> pos_args a ->
  a_shape f = a_grid a ->
  exists u f', evaluate_disp s f = Ret u /\ evaluate_force s u = Ret f'
  /\ same_on (a_grid a) (a_val f') (fun x y => a_val f x y - removed_mean a (a_val f)).
Proof.
  intros a s f H Hp E. pose proof (hs_grid a s H) as Eg.
  destruct (evaluate_disp_eq a s f H) as [u [Eu [Su Vu]]]; [congruence|].
  destruct (evaluate_force_eq a s u H Su) as [f' [Ef [_ Vf]]].
  exists u, f'. split; [assumption|]. split; [assumption|].
  intros x y Hg. rewrite <- (zeroed_case a s (a_val f) H x y Hg).
  unfold on_grid in Hg. rewrite <- (nx_gx a s H), <- (ny_gy a s H) in Hg.
  destruct (construct_inv a s H) as [Hn _].
  pose proof (grid_pos _ _ Hn) as [G1 G2].
  pose proof (area_pos _ _ Hn Hp) as A.
  rewrite Vf.
  rewrite (mult_ext _ _ _ _ (fun x y => - / area_per_pt (s_hs s) *
     mult (nx (s_hs s)) (ny (s_hs s)) (GF s) (a_val f) x y)) by assumption.
  rewrite mult_scal_r by (try tauto; eapply SS_Herm; eassumption).
  rewrite mult_comp by (try tauto; first [eapply SS_Herm; eassumption | eapply GF_Herm; eassumption]).
  rewrite (mult_ext2 _ _ _ (fun k l => RtoC (if zeroed (s_hs s) k l then 0 else 1))); try assumption.
  - field. lra.
  - intros k l Hk Hl. unfold SS, GF. rewrite <- RtoC_mult. f_equal.
    rewrite (ss_val a s H Hp), (gf_val a s H Hp) by assumption.
    pose proof (sigma_pos a s H Hp k l Hk Hl).
    destruct (zeroed (s_hs s) k l); [ring|field; lra].
Qed.

Lemma disp_of_force : forall a s u, construct a = Ret s -> pos_args a ->
  a_shape u = a_grid a ->
  exists f u', evaluate_force s u = Ret f /\ evaluate_disp s f = Ret u'
  /\ same_on (a_grid a) (a_val u') (fun x y => a_val u x y - removed_mean a (a_val u)).
Proof.
  intros a s u H Hp E. pose proof (hs_grid a s H) as Eg.
  destruct (evaluate_force_eq a s u H) as [f [Ef [Sf Vf]]]; [congruence|].
  destruct (evaluate_disp_eq a s f H Sf) as [u' [Eu [_ Vu]]].
  exists f, u'. split; [assumption|]. split; [assumption|].
  intros x y Hg. rewrite <- (zeroed_case a s (a_val u) H x y Hg).
  unfold on_grid in Hg. rewrite <- (nx_gx a s H), <- (ny_gy a s H) in Hg.
  destruct (construct_inv a s H) as [Hn _].
  pose proof (grid_pos _ _ Hn) as [G1 G2].
  pose proof (area_pos _ _ Hn Hp) as A.
  rewrite Vu by tauto.
  rewrite (mult_ext _ _ _ _ (fun x y => - area_per_pt (s_hs s) *
     mult (nx (s_hs s)) (ny (s_hs s)) (SS s) (a_val u) x y)) by (intros; apply Vf).
  rewrite mult_scal_r by (try tauto; eapply GF_Herm; eassumption).
  rewrite mult_comp by (try tauto; first [eapply SS_Herm; eassumption | eapply GF_Herm; eassumption]).
  rewrite (mult_ext2 _ _ _ (fun k l => RtoC (if zeroed (s_hs s) k l then 0 else 1))); try assumption.
  - field. lra.
  - intros k l Hk Hl. unfold SS, GF. rewrite <- RtoC_mult. f_equal.
    rewrite (ss_val a s H Hp), (gf_val a s H Hp) by assumption.
    pose proof (sigma_pos a s H Hp k l Hk Hl).
    destruct (zeroed (s_hs s) k l); [ring|field; lra].
Qed.
