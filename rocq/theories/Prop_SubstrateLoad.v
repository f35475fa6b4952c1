(** * C93 Prescribed loads: the stiffness against uniform displacement does not matter *)
From Coq Require Import Reals Lia Lra List Arith Bool.
From Coquelicot Require Import Complex.
From Verif Require Import Py FFT_Base HalfSpace_Spec HalfSpace_Model HalfSpace_Proofs HalfSpace_Results HalfSpace_Results2 HalfSpace_Witness
  Systems_Model Systems_Spec Systems_Proofs Pipeline_Model Contact_Model Contact_Proofs Contact_Results Contact_Results3 Signorini_Spec Signorini_Base Substrate_Contact Substrate_Contact_Spec Substrate_Witness Prop_SubstrateContact.
From Verif Require CCG_Model CCG_Real CCG_Spec Prop_Solver.
From Coq Require Import List.
Import ListNotations.
Local Open Scope R_scope.

Definition one00 (sym : nat -> nat -> R) (k l : nat) : R := if is_00 k l then 1 else sym k l.
Section Shift.
  Variables (n m : nat).
  Hypothesis PX : (0 < n)%nat.
  Hypothesis PY : (0 < m)%nat.
  Variable sym : nat -> nat -> R.
  Hypothesis SH : Herm n m (fun k l => RtoC (sym k l)).
  Lemma one_Herm : Herm n m (fun k l => RtoC (one00 sym k l)).
  Proof.
    intros k l K L. unfold one00. rewrite is_00_neg by assumption. destruct (is_00 k l); [rewrite Cconj_RtoC; reflexivity|].
    apply (SH k l K L).
  Qed.
  Lemma comply_shift : forall F x y, (x < n)%nat -> (y < m)%nat ->
    comply n m sym F x y = comply n m (one00 sym) F x y + (sym 0%nat 0%nat - 1) * mean [n; m] F.
  Proof.
    intros F. apply (fft2_inj n m PX PY (comply n m sym F) (fun x y => comply n m (one00 sym) F x y + (sym 0%nat 0%nat - 1) * mean [n; m] F)).
    intros k l K L. unfold comply.
    rewrite (fft2_ext n m (fun x y => mult n m (fun k l => RtoC (one00 sym k l)) F x y + (sym 0%nat 0%nat - 1) * mean [n; m] F)
      (fun x y => 1 * mult n m (fun k l => RtoC (one00 sym k l)) F x y + ((sym 0%nat 0%nat - 1) * mean [n; m] F) * 1)) by (intros; ring).
    rewrite (fft2_lin n m 1 _ _ (fun _ _ => 1)). rewrite !(fft2_mult n m PX PY) by (assumption || apply one_Herm).
    rewrite fft2_one by assumption. unfold one00. destruct (is_00 k l) eqn:Z.
    - unfold is_00 in Z. apply andb_prop in Z. destruct Z as [Z1 Z2]. apply Nat.eqb_eq in Z1. apply Nat.eqb_eq in Z2. subst.
      rewrite fft2_00. rewrite <- !RtoC_mult, <- RtoC_plus. f_equal. unfold mean, HalfSpace_Spec.total, npts. cbn [gx gy nth].
      apply lt_0_INR in PX. apply lt_0_INR in PY. field. lra.
    - rewrite Cmult_0_r, Cplus_0_r, Cmult_1_l. reflexivity.
  Qed.
End Shift.

Section Any.
  Variables (a : args) (s : sub).
  Hypothesis H : construct a = Ret s.
  Hypothesis PA : pos_args a.
  Local Notation g := (a_grid a).
  Local Notation n := (gx (a_grid a)).
  Local Notation m := (gy (a_grid a)).
  Local Notation one := (one00 (wave_compliance s)).
  Lemma one_pos : forall k l, (k < n)%nat -> (l < m)%nat -> 0 < one k l.
  Proof.
    intros k l K L. unfold one00. destruct (is_00 k l) eqn:Z; [lra|].
    pose proof (area_pos a s H PA) as A. apply Rmult_lt_0_compat; [apply Rinv_0_lt_compat; exact A|].
    rewrite <- (nx_gx a s H) in K. rewrite <- (ny_gy a s H) in L. rewrite (gf_val a s H PA k l K L). unfold zeroed.
    rewrite Z. cbn [andb]. apply Rdiv_lt_0_compat; [lra|]. apply (sigma_pos a s H PA); assumption.
  Qed.
  Definition move (F : field) : R := (wave_compliance s 0%nat 0%nat - 1) * mean g F.
  Lemma response_one : forall F u, elastic_response s g F u <-> response n m one F (fun x y => u x y - move F).
  Proof.
    intros F u. rewrite (response_iff a s H PA). destruct (gx_pos a s H) as [PX PY]. unfold response, move.
    split; intros R' x y Hx Hy; specialize (R' x y Hx Hy);
      pose proof (comply_shift n m PX PY (wave_compliance s) (wave_Herm a s H) F x y Hx Hy) as E;
      change (mean [n; m] F) with (mean g F) in E; lra.
  Qed.
  Lemma touching_one : forall h delta F u, touching s g h delta F u <->
    state n m one h (delta - move F) F (fun x y => u x y - move F).
  Proof.
    intros h delta F u. unfold touching, state. rewrite response_one. unfold on_grid. cbn [gx gy nth].
    assert (E : forall x y, gap h (delta - move F) (fun x y => u x y - move F) x y = gap h delta u x y) by (intros; unfold gap; ring).
    split; intros [R' C]; (split; [exact R'|]); intros x y G; specialize (C x y G); rewrite E in *; exact C.
  Qed.
End Any.

(** ** Every substrate, also with [stiffness_q0 = 0] *)
Theorem C93_at_load_any : forall a s h P, construct a = Ret s -> pos_args a -> 0 < P ->
  exists delta F u, touching s (a_grid a) h delta F u /\ mean (a_grid a) F = P
  /\ forall delta' F' u', touching s (a_grid a) h delta' F' u' -> mean (a_grid a) F' = P ->
     delta' = delta /\ forall x y, on_grid (a_grid a) x y -> F' x y = F x y /\ u' x y = u x y.
Proof.
  intros a s h P H PA PP. destruct (gx_pos a s H) as [PX PY].
  pose proof (one_pos a s H PA) as W. pose proof (one_Herm _ _ _ (wave_Herm a s H)) as WH.
  destruct (Substrate_Contact.contact_at_load _ _ PX PY _ W WH h P PP) as (delta & F & u & C & E).
  set (c := move a s F). exists (delta + c), F, (fun x y => u x y + c). split; [|split; [exact E|]].
  - apply (touching_one a s H PA). fold c. replace (delta + c - c) with delta by ring.
    replace (fun x y => u x y + c - c) with u; [exact C|].
    apply FunctionalExtensionality.functional_extensionality. intros x. apply FunctionalExtensionality.functional_extensionality. intros y. ring.
  - intros delta' F' u' C' E'. apply (touching_one a s H PA) in C'.
    assert (M : move a s F' = c) by (unfold c, move; rewrite E'; change (mean (a_grid a) F) with (mean [gx (a_grid a); gy (a_grid a)] F); rewrite E; reflexivity).
    rewrite M in C'. change (mean (a_grid a) F') with (mean [gx (a_grid a); gy (a_grid a)] F') in E'.
    destruct (Substrate_Contact.contact_load_unique _ _ PX PY _ W WH h _ _ _ _ _ _ C' C) as [D S]; [congruence|lra|].
    split; [lra|]. intros x y [Hx Hy]. destruct (S x y Hx Hy) as [S1 S2]. cbn beta in S2. split; [exact S1|lra].
Qed.
Print Assumptions C93_at_load_any.

(** Contact conditions met within [eps], at the load of the contact state. *)
Theorem C93_load_distance : forall a s h delta F u deltas Fs us eps, construct a = Ret s -> pos_args a ->
  elastic_response s (a_grid a) F u -> nearly_in_contact (a_grid a) h delta F u eps ->
  touching s (a_grid a) h deltas Fs us -> mean (a_grid a) F = mean (a_grid a) Fs ->
  0 <= distance (a_grid a) F u Fs us <= 2 * eps * total (a_grid a) Fs
  /\ (eps = 0 -> forall x y, on_grid (a_grid a) x y -> F x y = Fs x y /\ u x y = us x y).
Proof.
  intros a s h delta F u deltas Fs us eps H PA R1 V C E. destruct (gx_pos a s H) as [PX PY].
  pose proof (one_pos a s H PA) as W. pose proof (one_Herm _ _ _ (wave_Herm a s H)) as WH.
  assert (T : total (a_grid a) F = total (a_grid a) Fs).
  { unfold mean in E. apply lt_0_INR in PX. apply lt_0_INR in PY.
    apply (Rmult_eq_reg_r (/ (INR (gx (a_grid a)) * INR (gy (a_grid a))))); [exact E|]. apply Rinv_neq_0_compat. nra. }
  assert (MV : move a s F = move a s Fs) by (unfold move; rewrite E; reflexivity).
  apply (response_one a s H PA) in R1. pose proof (proj1 C) as R2. apply (response_one a s H PA) in R2. rewrite <- MV in R2.
  set (c := move a s F) in *.
  assert (D : distance (a_grid a) F u Fs us = distance (a_grid a) F (fun x y => u x y - c) Fs (fun x y => us x y - c)).
  { unfold distance, inner, HalfSpace_Spec.total. apply Rsum2_ext. intros. ring. }
  assert (LO : 0 <= distance (a_grid a) F u Fs us).
  { rewrite D. pose proof (Substrate_Contact.distance_mean _ _ PX PY _ W WH F _ Fs _ R1 R2) as M.
    pose proof (Substrate_Contact.stiff_pos _ _ PX PY _ W) as S.
    apply (Rmult_le_reg_l (stiff (one00 (wave_compliance s)))); [exact S|]. rewrite Rmult_0_r. eapply Rle_trans; [|exact M].
    apply Rmult_le_pos; [apply Rmult_le_pos; apply pos_INR|apply pow2_ge_0]. }
  assert (HI : distance (a_grid a) F u Fs us <= 2 * eps * total (a_grid a) Fs).
  { replace (2 * eps * total (a_grid a) Fs) with (eps * total (a_grid a) F + eps * total (a_grid a) Fs
      + (delta - deltas) * (total (a_grid a) F + -1 * total (a_grid a) Fs)) by (rewrite T; ring).
    unfold distance, inner, HalfSpace_Spec.total. rewrite <- !Rsum2_scal, <- !Rsum2_plus, <- !Rsum2_scal, <- !Rsum2_plus.
    apply Rsum2_le. intros x y Hx Hy. destruct (V x y (conj Hx Hy)) as (V1 & V2 & V3). destruct (proj2 C x y (conj Hx Hy)) as (C1 & C2 & C3).
    set (G := gap h delta u x y) in *. set (Gs := gap h deltas us x y) in *.
    replace (u x y - us x y) with (G - Gs + (delta - deltas)) by (unfold G, Gs, gap; ring).
    assert (0 <= F x y * Gs) by (apply Rmult_le_pos; lra).
    assert (0 <= Fs x y * (G + eps)) by (apply Rmult_le_pos; lra).
    assert (F x y * G <= F x y * eps).
    { destruct (Rle_lt_or_eq_dec _ _ V1) as [Q|Q]; [apply Rmult_le_compat_l; [lra|exact (V3 Q)]|rewrite <- Q; lra]. }
    nra. }
  split; [split; assumption|]. intros E0 x y [Hx Hy]. rewrite E0, Rmult_0_r, Rmult_0_l in HI. rewrite D in HI.
  destruct (Substrate_Contact.distance_zero _ _ PX PY _ W WH F _ Fs _ R1 R2 HI x y Hx Hy) as [S1 S2].
  cbn beta in S2. split; [exact S1|lra].
Qed.
Print Assumptions C93_load_distance.

(** A converged load-controlled calculation returns the load, and its forces are this near
    to those of the contact state. *)
Theorem C93_solver_load : forall o a s sf P off pentol maxiter r deltas Fs us,
  construct a = Ret s -> pos_args a -> 0 <= pentol -> 0 < P -> sf_grid sf = a_grid a ->
  CCG_Spec.ccg (solver_cfg o (periodic s) sf None (Some P) off pentol) maxiter = CCG_Model.Ok r ->
  CCG_Model.x_success r = true -> CCG_Model.x_str r = CCG_Model.Cg -> CCG_Model.x_tau r <> 0 ->
  (forall z, CCG_Model.x_active r z = false -> CCG_Model.x_jac r z = 0) ->
  touching s (a_grid a) (a_val (heights sf)) deltas Fs us -> total (a_grid a) Fs = P ->
  let F := a_val (o_jac (result_object (periodic s) r)) in
  let u := a_val (o_x (result_object (periodic s) r)) in
  total (a_grid a) F = P
  /\ 0 <= distance (a_grid a) F u Fs us <= 2 * (pentol * (1 + sqrt (INR (gx (a_grid a) * gy (a_grid a))))) * P.
Proof.
  intros o a s sf P off pentol maxiter r deltas Fs us H PA PT PP GR RUN SU ST TA IA C T F u. destruct (gx_pos a s H) as [PX PY].
  destruct (solver_near o a s sf (Some P) off pentol maxiter r H PA PT) as [RS V]; try assumption;
    [intros ? [= <-]; lra|tauto|intros _; exact IA|].
  fold F u in RS, V.
  assert (TF : total (a_grid a) F = P).
  { assert (GS : sb_sub (periodic s) = a_grid a) by exact (hs_grid _ _ H).
    assert (CS : comp_shape (periodic s) = a_grid a).
    { assert (Min : forall g : list nat, map (fun p => Nat.min (fst p) (snd p)) (combine g g) = g).
      { induction g as [|q g IH]; [reflexivity|]. cbn. rewrite IH, Nat.min_id. reflexivity. }
      unfold comp_shape. cbn [periodic sb_topo sb_sub sb_grid]. rewrite ?(hs_grid _ _ H). apply Min. }
    set (c := solver_cfg o (periodic s) sf None (Some P) off pentol) in *.
    assert (AL : filter (fun p => CCG_Model.c_slice c p && negb (CCG_Model.c_masked c p)) (CCG_Spec.grid c) = points (sb_sub (periodic s))).
    { unfold c. rewrite cfg_grid. cbn [solver_cfg CCG_Model.c_slice CCG_Model.c_masked].
      assert (K : forall z : pt (sb_sub (periodic s)), inside (comp_shape (periodic s)) (px z, py z) && negb false = true).
      { intros z. rewrite CS, andb_true_r. apply inside_true. clear - GS. revert z. rewrite GS. intros z. exact (pt_inside (a_grid a) z). }
      clear - K. revert K. generalize (points (sb_sub (periodic s))). intros l K. induction l as [|z l IH]; [reflexivity|]. cbn [filter].
      rewrite K, IH. reflexivity. }
    assert (CT : List.length (points (sb_sub (periodic s))) = (gx (a_grid a) * gy (a_grid a))%nat) by (rewrite points_count, GS; reflexivity).
    assert (NS : CCG_Model.c_nsurf c = (gx (a_grid a) * gy (a_grid a))%nat).
    { unfold c. cbn [solver_cfg CCG_Model.c_nsurf]. rewrite GR. destruct (construct_inv a s H) as [Hn _].
      destruct (new_inv _ _ Hn) as (L & _). clear - L. destruct (a_grid a) as [|n0 [|m0 [|? ?]]]; cbn in L; try lia; cbn; lia. }
    pose proof (Prop_Solver.C07_force_total _ c maxiter r P eq_refl eq_refl RUN ST) as Q. cbv zeta in Q. rewrite AL in Q.
    rewrite <- Q; [|congruence|].
    - unfold CCG_Spec.total. rewrite AL, sum_points. unfold F. cbn [result_object o_jac a_val]. unfold HalfSpace_Spec.total.
      replace (gx (a_grid a)) with (gx (sb_sub (periodic s))) by (rewrite GS; reflexivity).
      replace (gy (a_grid a)) with (gy (sb_sub (periodic s))) by (rewrite GS; reflexivity). reflexivity.
    - intros Z. rewrite Z in CT. cbn in CT. nia. }
  split; [exact TF|]. rewrite <- T.
  apply (C93_load_distance a s (a_val (heights sf)) (CCG_Model.x_offset r) F u deltas Fs us); try assumption.
  unfold mean. rewrite TF, T. reflexivity.
Qed.
Print Assumptions C93_solver_load.

(** Two substrates that differ in [stiffness_q0] only: same forces and same gaps at the
    same load. *)
Theorem C93_q0_no_effect : forall a s q s' h delta F u delta' F' u', construct a = Ret s -> pos_args a ->
  let a' := mkArgs (a_grid a) (a_young a) (a_sizes a) q (a_thick a) (a_poisson a) (a_engine a) in
  construct a' = Ret s' -> pos_args a' ->
  touching s (a_grid a) h delta F u -> touching s' (a_grid a) h delta' F' u' ->
  mean (a_grid a) F = mean (a_grid a) F' -> 0 < mean (a_grid a) F ->
  forall x y, on_grid (a_grid a) x y -> F x y = F' x y /\ gap h delta u x y = gap h delta' u' x y.
Proof.
  intros a s q s' h delta F u delta' F' u' H PA a' H' PA' C C' E P x y [Hx Hy]. destruct (gx_pos a s H) as [PX PY].
  pose proof (one_pos a s H PA) as W. pose proof (one_Herm _ _ _ (wave_Herm a s H)) as WH.
  apply (touching_one a s H PA) in C. change (a_grid a) with (a_grid a') in C'. apply (touching_one a' s' H' PA') in C'.
  change (a_grid a') with (a_grid a) in C'.
  assert (EQ : forall k l, (k < gx (a_grid a))%nat -> (l < gy (a_grid a))%nat ->
    one00 (wave_compliance s') k l = one00 (wave_compliance s) k l).
  { intros k l K L. unfold one00. destruct (is_00 k l) eqn:Z; [reflexivity|]. unfold wave_compliance.
    rewrite (gf_val a s H PA k l) by (rewrite ?(nx_gx a s H), ?(ny_gy a s H); assumption).
    rewrite (gf_val a' s' H' PA' k l) by (rewrite ?(nx_gx a' s' H'), ?(ny_gy a' s' H'); assumption).
    unfold zeroed, sigma. rewrite Z. cbn [andb].
    destruct (construct_inv a s H) as [Hn _]. destruct (construct_inv a' s' H') as [Hn' _].
    apply new_inv in Hn. apply new_inv in Hn'. destruct Hn as (_ & _ & _ & _ & _ & _ & ->). destruct Hn' as (_ & _ & _ & _ & _ & _ & ->).
    reflexivity. }
  assert (CE : forall f i j, comply (gx (a_grid a)) (gy (a_grid a)) (one00 (wave_compliance s')) f i j
    = comply (gx (a_grid a)) (gy (a_grid a)) (one00 (wave_compliance s)) f i j).
  { intros f i j. unfold comply. apply mult_ext_G. intros k l K L. rewrite EQ; [reflexivity| |assumption].
    eapply Nat.le_lt_trans; [exact K|]. apply Nat.div_lt; lia. }
  assert (C2 : state (gx (a_grid a)) (gy (a_grid a)) (one00 (wave_compliance s)) h (delta' - move a' s' F') F' (fun x y => u' x y - move a' s' F')).
  { destruct C' as [R' C']. split; [|exact C']. intros i j Hi Hj. rewrite <- CE. apply R'; assumption. }
  destruct (Substrate_Contact.contact_load_unique _ _ PX PY _ W WH h _ _ _ _ _ _ C C2 E P) as [D S].
  destruct (S x y Hx Hy) as [S1 S2]. cbn beta in S2. split; [exact S1|]. unfold gap. lra.
Qed.
Print Assumptions C93_q0_no_effect.

(** A substrate with [stiffness_q0 = 0] and the one with the default stiffness. *)
Example C93_load_nonvacuous : exists s s' delta F u delta' F' u',
  construct hsB = Ret s /\ pos_args hsB /\ a_q0 hsB = Some 0
  /\ construct (mkArgs (a_grid hsB) (a_young hsB) (a_sizes hsB) None (a_thick hsB) (a_poisson hsB) (a_engine hsB)) = Ret s'
  /\ pos_args (mkArgs (a_grid hsB) (a_young hsB) (a_sizes hsB) None (a_thick hsB) (a_poisson hsB) (a_engine hsB))
  /\ touching s (a_grid hsB) (fun x y => INR (x * y)) delta F u
  /\ touching s' (a_grid hsB) (fun x y => INR (x * y)) delta' F' u'
  /\ mean (a_grid hsB) F = 1 /\ mean (a_grid hsB) F' = 1
  /\ nearly_in_contact (a_grid hsB) (fun x y => INR (x * y)) delta F u 0.
Proof.
  destruct hsB_ok as [s E]. set (a' := mkArgs (a_grid hsB) (a_young hsB) (a_sizes hsB) None (a_thick hsB) (a_poisson hsB) (a_engine hsB)).
  assert (E' : exists s', construct a' = Ret s').
  { apply (construct_2d_ok a' 4 3); try reflexivity; try lia; [left; reflexivity|discriminate|cbn; lra|].
    intros g [= <-]. reflexivity. }
  destruct E' as [s' E'].
  assert (PA' : pos_args a').
  { destruct hsB_pos as (A1 & A2 & A3 & A4 & _). repeat split; try assumption; try apply A3; try (apply (A4 t); assumption).
    intros q Q. discriminate. }
  destruct (C93_at_load_any hsB s (fun x y => INR (x * y)) 1 E hsB_pos Rlt_0_1) as (delta & F & u & C & M & _).
  destruct (C93_at_load_any a' s' (fun x y => INR (x * y)) 1 E' PA' Rlt_0_1) as (delta' & F' & u' & C' & M' & _).
  exists s, s', delta, F, u, delta', F', u'. split; [exact E|]. split; [exact hsB_pos|]. split; [reflexivity|]. split; [exact E'|].
  split; [exact PA'|]. split; [exact C|]. split; [exact C'|]. split; [exact M|]. split; [exact M'|].
  intros x y G. destruct (proj2 C x y G) as (C1 & C2 & C3). split; [exact C1|]. split; [lra|]. intros P. apply Rmult_integral in C3. lra.
Qed.

(** Hypotheses of [C93_solver_load] (and of [C93_solver] with a load): a run that ends with a step. *)
Example C93_solver_load_nonvacuous : exists s r deltas Fs us,
  construct line = Ret s /\ pos_args line /\ sf_grid two_rows = a_grid line
  /\ CCG_Spec.ccg (solver_cfg loose (periodic s) two_rows None (Some 3) 0 (1 / 4)) 50 = CCG_Model.Ok r
  /\ CCG_Model.x_success r = true /\ CCG_Model.x_str r = CCG_Model.Cg /\ CCG_Model.x_tau r <> 0
  /\ (forall z, CCG_Model.x_active r z = false -> CCG_Model.x_jac r z = 0)
  /\ touching s (a_grid line) (a_val (heights two_rows)) deltas Fs us /\ total (a_grid line) Fs = 3.
Proof.
  destruct line_ok as [s E]. destruct (line_run s E) as (r & R1 & SU & ST & TA & AC).
  destruct (C93_at_load_any line s (a_val (heights two_rows)) (3 / 2) E line_pos ltac:(lra)) as (deltas & Fs & us & C & M & _).
  exists s, r, deltas, Fs, us. split; [exact E|]. split; [exact line_pos|]. split; [reflexivity|]. split; [exact R1|].
  split; [exact SU|]. split; [exact ST|]. split; [exact TA|]. split; [intros z Z; rewrite AC in Z; discriminate|]. split; [exact C|].
  unfold mean in M. cbn [line a_grid gx gy nth] in *. change (INR 1) with 1 in M. change (INR 2) with 2 in M. lra.
Qed.
