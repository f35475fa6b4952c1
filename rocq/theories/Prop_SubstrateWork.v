(** * C97 Energy and load of the contact on every periodic substrate of the package

    C83 for any modulus, Poisson number, thickness and stiffness of the uniform
    displacement, on a line or a surface, with the energy that the substrate itself
    reports. *)
From Coq Require Import Reals Lia Lra List Arith Bool String.
From Coquelicot Require Import Complex Coquelicot.
From Verif Require Import Py FFT_Base HalfSpace_Spec HalfSpace_Model HalfSpace_Proofs HalfSpace_Results HalfSpace_Results2 HalfSpace_Witness
  Systems_Model Systems_Spec Systems_Proofs Pipeline_Model Pipeline_Spec
  Contact_Spec Contact_Model Contact_Proofs Contact_Results Contact_Results2 Contact_Results3 Contact_Load Prop_Pipeline Prop_Contact
  Signorini_Spec Signorini_Base.
From Verif Require Import Signorini_Periodic Prop_Signorini.
From Verif Require Import Substrate_Contact Substrate_Contact_Spec Prop_SubstrateContact Work_Spec Substrate_Work_Spec Substrate_Witness.
From Verif Require Prop_HalfSpace Prop_Solver CCG_Model CCG_Real CCG_Spec CCG_Proofs Substrate_Work.
From Coq Require Import List.
Import ListNotations.
Local Open Scope R_scope.

(** ** What the substrate reports *)
(** The energy of the response to forces is half their work; every displacement is
    the response to some forces. *)
Theorem C97_energy : forall a s, construct a = Ret s -> pos_args a -> a_q0 a <> Some 0 ->
  (forall F u, elastic_response s (a_grid a) F u -> reported_energy s (a_grid a) u (inner (a_grid a) F u / 2))
  /\ (forall u, exists F, elastic_response s (a_grid a) F u)
  /\ (forall u E E', reported_energy s (a_grid a) u E -> reported_energy s (a_grid a) u E' -> E = E').
Proof.
  intros a s H PA Q. split; [|split].
  - intros F u RS. destruct (evaluate_energy a s u H) as (f & E1 & E2 & _). exists (Some f). rewrite E1.
    enough (EQ : 0.5 * inner (a_grid a) u (fun x y => - a_val f x y) = inner (a_grid a) F u / 2) by (rewrite EQ; reflexivity).
    destruct RS as (U & EU & V). destruct (proj1 (Prop_HalfSpace.C20_inverse a s (fun x y => - F x y) H PA Q)) as (U' & f' & EU' & EF & SF).
    rewrite EU in EU'. injection EU' as <-.
    assert (FF : forall x y, on_grid (a_grid a) x y -> a_val f x y = - F x y).
    { intros x y G. rewrite <- (SF x y G). destruct (force_multiplier a s H) as (P1 & P2 & HG & _ & ME).
      destruct (ME (mkArr (a_grid a) u) eq_refl) as (f1 & Ef1 & _ & V1). rewrite E2 in Ef1. injection Ef1 as <-.
      assert (SH : a_shape U = a_grid a).
      { destruct (disp_multiplier a s H) as (_ & _ & _ & _ & MD). destruct (MD (mkArr (a_grid a) (fun x y => - F x y)) eq_refl) as (U2 & EU2 & SU & _).
        rewrite EU in EU2. injection EU2 as <-. exact SU. }
      destruct (ME U SH) as (f2 & Ef2 & _ & V2). rewrite EF in Ef2. injection Ef2 as <-.
      rewrite V1, V2 by exact G. cbn [a_val]. f_equal. apply mult_ext. intros i j Hi Hj. apply V. split; assumption. }
    unfold inner, total. replace (Rsum2 (gx (a_grid a)) (gy (a_grid a)) (fun x y => F x y * u x y) / 2)
      with (/ 2 * Rsum2 (gx (a_grid a)) (gy (a_grid a)) (fun x y => F x y * u x y)) by field.
    replace 0.5 with (/ 2) by lra. f_equal. apply Rsum2_ext. intros x y Hx Hy. rewrite FF by (split; assumption). ring.
  - intros u. destruct (proj2 (Prop_HalfSpace.C20_inverse a s u H PA Q)) as (f & u' & EF & EU & SU).
    exists (fun x y => - a_val f x y). destruct (disp_multiplier a s H) as (P1 & P2 & HG & _ & MD).
    destruct (MD (mkArr (a_grid a) (fun x y => - - a_val f x y)) eq_refl) as (U2 & EU2 & _ & V2). exists U2. split; [exact EU2|].
    assert (SH : a_shape f = a_grid a).
    { destruct (force_multiplier a s H) as (_ & _ & _ & _ & MF). destruct (MF (mkArr (a_grid a) u) eq_refl) as (f2 & Ef2 & SF & _).
      rewrite EF in Ef2. injection Ef2 as <-. exact SF. }
    destruct (MD f SH) as (U3 & EU3 & _ & V3). rewrite EU in EU3. injection EU3 as <-.
    intros x y G. rewrite <- (SU x y G). rewrite V3, V2 by exact G. cbn [a_val]. f_equal. apply mult_ext. intros. ring.
  - intros u E E' (f & E1) (f' & E2). rewrite E1 in E2. injection E2 as <- _. reflexivity.
Qed.
Print Assumptions C97_energy.

Lemma reported : forall a s F u E, construct a = Ret s -> pos_args a -> a_q0 a <> Some 0 ->
  elastic_response s (a_grid a) F u -> reported_energy s (a_grid a) u E -> E = stored [gx (a_grid a); gy (a_grid a)] F u.
Proof.
  intros a s F u E H PA Q RS RE. destruct (C97_energy a s H PA Q) as (A & _ & B). exact (B u E _ RE (A F u RS)).
Qed.

(** ** Work of the load *)
(** The slope of the reported energy is the load, and the energy gained between two
    offsets is the area under the load curve. *)
Theorem C97_work : forall a s h (F U : R -> field) energy, construct a = Ret s -> pos_args a -> a_q0 a <> Some 0 ->
  (forall delta, touching s (a_grid a) h delta (F delta) (U delta) /\ reported_energy s (a_grid a) (U delta) (energy delta)) ->
  let load := fun delta => total (a_grid a) (F delta) in
  (forall delta, is_derive energy delta (load delta))
  /\ (forall b c, is_RInt load b c (energy c - energy b))
  /\ (forall b c t, 0 <= t <= 1 -> energy ((1 - t) * b + t * c) <= (1 - t) * energy b + t * energy c)
  /\ (forall delta, (forall x y, on_grid (a_grid a) x y -> h x y + delta <= 0) -> energy delta = 0).
Proof.
  intros a s h F U energy H PA Q FA load. destruct (gx_pos a s H) as [PX PY].
  pose proof (wave_pos a s H PA Q) as W. pose proof (wave_Herm a s H) as WH.
  set (n := gx (a_grid a)) in *. set (m := gy (a_grid a)) in *.
  assert (FS : forall delta, state n m (wave_compliance s) h delta (F delta) (U delta)).
  { intros delta. apply (touching_iff a s H PA), FA. }
  assert (EN : forall delta, energy delta = stored [n; m] (F delta) (U delta)).
  { intros delta. destruct (FA delta) as [T RE]. exact (reported a s _ _ _ H PA Q (proj1 T) RE). }
  assert (B : forall b c, (c - b) * load b <= energy c - energy b <= (c - b) * load c).
  { intros b c. rewrite !EN. exact (Substrate_Work.family_bracket n m PX PY _ W WH h F U FS b c). }
  split; [|split; [|split]].
  - intros delta. apply (is_derive_ext (fun d => stored [n; m] (F d) (U d))); [intros; symmetry; apply EN|].
    exact (Substrate_Work.family_derive n m PX PY _ W WH h F U FS delta).
  - intros b c. rewrite !EN. exact (Substrate_Work.family_work n m PX PY _ W WH h F U FS b c).
  - intros b c t T. set (d := (1 - t) * b + t * c). destruct (B d b) as [Ba _]. destruct (B d c) as [Bb _].
    apply (Rmult_le_compat_l (1 - t)) in Ba; [|lra]. apply (Rmult_le_compat_l t) in Bb; [|lra].
    assert (Z : (1 - t) * ((b - d) * load d) + t * ((c - d) * load d) = 0) by (unfold d; ring). lra.
  - intros delta L. rewrite EN. assert (E0 : 0 <= stored [n; m] (F delta) (U delta) <= 0); [|lra].
    pose proof (comply_response n m (wave_compliance s) (fun _ _ => 0)) as R0.
    assert (Z : stored [n; m] (fun _ _ => 0) (comply n m (wave_compliance s) (fun _ _ => 0)) = 0).
    { unfold stored. rewrite (Substrate_Work.inner_R n m). rewrite (Rsum2_ext n m _ (fun _ _ => 0)) by (intros; ring). rewrite Rsum2_const. field. }
    split.
    + pose proof (Substrate_Work.distance_nonneg n m PX PY _ W WH (F delta) (U delta) _ _ (proj1 (FS delta)) R0) as D.
      unfold distance in D. unfold stored. rewrite (Substrate_Work.inner_R n m) in *.
      rewrite (Rsum2_ext n m _ (fun x y => F delta x y * U delta x y)) in D; [lra|].
      intros x y Hx Hy. rewrite (Substrate_Work.Comp_zero n m PX PY _ WH x y Hx Hy). ring.
    + rewrite <- Z. apply (Substrate_Work.least_energy n m PX PY _ W WH h delta _ _ _ _ (FS delta) R0). intros x y [Hx Hy]. unfold gap.
      rewrite (Substrate_Work.Comp_zero n m PX PY _ WH x y Hx Hy). specialize (L x y (conj Hx Hy)). lra.
Qed.
Print Assumptions C97_work.

(** ** Least energy *)
(** Of all displacements that keep clear of the surface the state of contact has the
    least reported energy; forces without tension bound it from below. *)
Theorem C97_least : forall a s h delta F u E, construct a = Ret s -> pos_args a -> a_q0 a <> Some 0 ->
  touching s (a_grid a) h delta F u -> reported_energy s (a_grid a) u E ->
  (forall v Ev, (forall x y, on_grid (a_grid a) x y -> 0 <= gap h delta v x y) -> reported_energy s (a_grid a) v Ev -> E <= Ev)
  /\ (forall G v Ev, (forall x y, on_grid (a_grid a) x y -> 0 <= G x y) -> elastic_response s (a_grid a) G v ->
      reported_energy s (a_grid a) v Ev -> inner (a_grid a) G (fun x y => h x y + delta) - Ev <= E)
  /\ inner (a_grid a) F (fun x y => h x y + delta) - E = E.
Proof.
  intros a s h delta F u E H PA Q T RE. destruct (gx_pos a s H) as [PX PY].
  pose proof (wave_pos a s H PA Q) as W. pose proof (wave_Herm a s H) as WH.
  rewrite (reported a s F u E H PA Q (proj1 T) RE). apply (touching_iff a s H PA) in T.
  set (n := gx (a_grid a)) in *. set (m := gy (a_grid a)) in *. split; [|split].
  - intros v Ev V RV. destruct (proj1 (proj2 (C97_energy a s H PA Q)) v) as [G RG].
    rewrite (reported a s G v Ev H PA Q RG RV). apply (response_iff a s H PA) in RG.
    exact (Substrate_Work.least_energy n m PX PY _ W WH h delta F u G v T RG V).
  - intros G v Ev P RG RV. rewrite (reported a s G v Ev H PA Q RG RV). apply (response_iff a s H PA) in RG.
    destruct (Substrate_Work.least_complementary n m PX PY _ W WH h delta F u G v T RG P) as [A B]. rewrite A in B.
    unfold complementary in B. change (inner (a_grid a) G (fun x y => h x y + delta)) with (inner [n; m] G (fun x y => h x y + delta)). fold n m. lra.
  - pose proof (Substrate_Work.gap_work n m _ h delta F u T) as Z. rewrite (Substrate_Work.inner_gap n m) in Z.
    change (inner (a_grid a) F (fun x y => h x y + delta)) with (inner [n; m] F (fun x y => h x y + delta)). fold n m. unfold stored. lra.
Qed.
Print Assumptions C97_least.

(** ** Other surfaces *)
Theorem C97_surfaces : forall a s h delta F u E h' delta' F' u' E', construct a = Ret s -> pos_args a -> a_q0 a <> Some 0 ->
  touching s (a_grid a) h delta F u -> reported_energy s (a_grid a) u E ->
  touching s (a_grid a) h' delta' F' u' -> reported_energy s (a_grid a) u' E' ->
  let rise := fun x y => (h' x y + delta') - (h x y + delta) in
  inner (a_grid a) F rise <= E' - E <= inner (a_grid a) F' rise
  /\ ((forall x y, on_grid (a_grid a) x y -> 0 <= rise x y) -> E <= E')
  /\ (forall eps k, (forall x y, on_grid (a_grid a) x y -> Rabs (rise x y) <= eps) -> net_stiffness s (a_grid a) k ->
      Rabs (sqrt (mean (a_grid a) F') - sqrt (mean (a_grid a) F)) <= sqrt (k * eps)
      /\ - (eps * total (a_grid a) F) <= E' - E <= eps * total (a_grid a) F').
Proof.
  intros a s h delta F u E h' delta' F' u' E' H PA Q T RE T' RE' rise. destruct (gx_pos a s H) as [PX PY].
  pose proof (wave_pos a s H PA Q) as W. pose proof (wave_Herm a s H) as WH.
  rewrite (reported a s F u E H PA Q (proj1 T) RE), (reported a s F' u' E' H PA Q (proj1 T') RE').
  apply (touching_iff a s H PA) in T. apply (touching_iff a s H PA) in T'.
  set (n := gx (a_grid a)) in *. set (m := gy (a_grid a)) in *.
  pose proof (Substrate_Work.work_between n m PX PY _ W WH h delta h' delta' F u F' u' T T') as B. fold rise in B.
  split; [exact B|]. split.
  - intros R0. assert (0 <= inner [n; m] F rise); [|lra]. apply Substrate_Work.inner_nonneg. intros x y O.
    apply Rmult_le_pos; [apply (proj2 T x y O)|exact (R0 x y O)].
  - intros eps k EB K. rewrite (net_unique a s H k _ K (net_stiff a s H PA Q)).
    assert (PE : 0 <= eps) by (eapply Rle_trans; [apply Rabs_pos|apply (EB 0%nat 0%nat); split; assumption]).
    pose proof (Substrate_Work.surface_near n m _ h delta h' delta' F' u' eps T' EB) as V. split.
    + exact (Substrate_Contact.load_error n m PX PY _ W WH h delta F' u' F u eps (proj1 T') T PE V).
    + exact (Substrate_Work.near_energy n m PX PY _ W WH h delta F' u' F u eps (proj1 T') T PE V).
Qed.
Print Assumptions C97_surfaces.

(** ** Computed states *)
(** The energy in the result object of a solver run is the one that the substrate
    reports for the returned displacements. *)
Theorem C97_result : forall o a s sf ext off pentol maxiter r, construct a = Ret s -> pos_args a -> a_q0 a <> Some 0 ->
  CCG_Spec.ccg (solver_cfg o (periodic s) sf None ext off pentol) maxiter = CCG_Model.Ok r ->
  let F := a_val (o_jac (result_object (periodic s) r)) in
  let u := a_val (o_x (result_object (periodic s) r)) in
  elastic_response s (a_grid a) F u -> reported_energy s (a_grid a) u (CCG_Model.x_fun r).
Proof.
  intros o a s sf ext off pentol maxiter r H PA Q RUN F u RS.
  assert (E : CCG_Model.x_fun r = inner (a_grid a) F u / 2); [|rewrite E; exact (proj1 (C97_energy a s H PA Q) F u RS)].
  set (c := solver_cfg o (periodic s) sf None ext off pentol) in *.
  rewrite (proj2 (Prop_Solver.C01_self_consistent _ c maxiter r I RUN)).
  assert (GS : sb_sub (periodic s) = a_grid a) by exact (hs_grid _ _ H).
  assert (CS : comp_shape (periodic s) = a_grid a).
  { assert (Min : forall g : list nat, map (fun p => Nat.min (fst p) (snd p)) (combine g g) = g).
    { induction g as [|q g IH]; [reflexivity|]. cbn. rewrite IH, Nat.min_id. reflexivity. }
    unfold comp_shape. cbn [periodic sb_topo sb_sub sb_grid]. rewrite ?(hs_grid _ _ H). apply Min. }
  assert (FT : filter (CCG_Model.c_slice c) (CCG_Spec.grid c) = CCG_Spec.grid c).
  { assert (FL : forall A (f : A -> bool) l, (forall x, In x l -> f x = true) -> filter f l = l).
    { intros A f. induction l as [|x l IH]; intros HF; [reflexivity|]. cbn. rewrite (HF x) by (left; reflexivity).
      rewrite IH by (intros; apply HF; right; assumption). reflexivity. }
    apply FL. intros z _. change (CCG_Model.c_slice c z) with (inside (comp_shape (periodic s)) (px z, py z)). rewrite CS. apply inside_true.
    clear - GS. revert z. revert GS. generalize (sb_sub (periodic s)). intros g' -> z. exact (pt_inside (a_grid a) z). }
  rewrite FT. unfold c. rewrite cfg_grid, sum_points.
  assert (GX : gx (sb_sub (periodic s)) = gx (a_grid a)) by (rewrite GS; reflexivity).
  assert (GY : gy (sb_sub (periodic s)) = gy (a_grid a)) by (rewrite GS; reflexivity). rewrite GX, GY.
  unfold inner, total.
  rewrite (Rsum2_ext _ _ (fun x y => F x y * u x y) (fun x y => write (sb_sub (periodic s)) 0 (fun z => CCG_Model.x_jac r z * CCG_Model.x_x r z) x y)).
  - unfold Rdiv. rewrite Rmult_comm. reflexivity.
  - intros x y Hx Hy. unfold F, u. cbn [result_object o_jac o_x a_val].
    assert (HG : (x < gx (sb_sub (periodic s)))%nat /\ (y < gy (sb_sub (periodic s)))%nat) by (rewrite GS; split; assumption).
    rewrite !(write_in _ (sb_sub (periodic s)) _ _ x y HG). reflexivity.
Qed.
Print Assumptions C97_result.

(** A converged run (last iteration with status [cg] and a step): its energy is that
    of the exact state up to the work of the loads on the tolerated penetration. *)
Theorem C97_solver : forall o a s sf ext off pentol maxiter r Fs us Es,
  construct a = Ret s -> pos_args a -> a_q0 a <> Some 0 -> 0 <= pentol ->
  (forall P, ext = Some P -> 0 <= P) ->
  CCG_Spec.ccg (solver_cfg o (periodic s) sf None ext off pentol) maxiter = CCG_Model.Ok r ->
  CCG_Model.x_success r = true -> CCG_Model.x_str r = CCG_Model.Cg ->
  CCG_Model.x_tau r <> 0 \/ CCG_Model.x_nit r = 1%nat ->
  (ext <> None -> forall z, CCG_Model.x_active r z = false -> CCG_Model.x_jac r z = 0) ->
  touching s (a_grid a) (a_val (heights sf)) (CCG_Model.x_offset r) Fs us -> reported_energy s (a_grid a) us Es ->
  let eps := pentol * (1 + sqrt (INR (gx (a_grid a) * gy (a_grid a)))) in
  - (eps * total (a_grid a) Fs) <= CCG_Model.x_fun r - Es
  <= eps * total (a_grid a) (a_val (o_jac (result_object (periodic s) r))).
Proof.
  intros o a s sf ext off pentol maxiter r Fs us Es H PA Q PT EX RUN SU ST TA IA T RE eps.
  destruct (solver_near o a s sf ext off pentol maxiter r H PA PT EX RUN SU ST) as [RS V]; [tauto|exact IA|]. fold eps in V.
  pose proof (C97_result o a s sf ext off pentol maxiter r H PA Q RUN RS) as RR. cbv zeta in RS, RR. destruct (gx_pos a s H) as [PX PY].
  pose proof (wave_pos a s H PA Q) as W. pose proof (wave_Herm a s H) as WH.
  rewrite (reported a s _ _ _ H PA Q RS RR), (reported a s _ _ _ H PA Q (proj1 T) RE).
  assert (EP : 0 <= eps) by (apply Rmult_le_pos; [exact PT|pose proof (sqrt_pos (INR (gx (a_grid a) * gy (a_grid a)))); lra]).
  apply (touching_iff a s H PA) in T. apply (response_iff a s H PA) in RS.
  exact (Substrate_Work.near_energy _ _ PX PY _ W WH _ _ _ _ Fs us eps RS T EP V).
Qed.
Print Assumptions C97_solver.

(** ** Cases *)
(** A layer of thickness 3 under a rough surface: the states of all offsets, which
    store energy from the offset 1 on; the executed run of C93 on a line. *)
Example C97_nonvacuous :
  (exists s (F U : R -> field) energy, construct hsD = Ret s /\ pos_args hsD /\ a_q0 hsD <> Some 0
     /\ (forall delta, touching s (a_grid hsD) (fun x y => INR (x * y)) delta (F delta) (U delta)
           /\ reported_energy s (a_grid hsD) (U delta) (energy delta))
     /\ energy (-6) = 0 /\ 0 < energy 1)
  /\ exists s r Fs us Es, construct line = Ret s /\ pos_args line /\ a_q0 line <> Some 0
     /\ CCG_Spec.ccg (solver_cfg loose (periodic s) two_rows None (Some 3) 0 (1 / 4)) 50 = CCG_Model.Ok r
     /\ CCG_Model.x_success r = true /\ CCG_Model.x_str r = CCG_Model.Cg /\ CCG_Model.x_tau r <> 0
     /\ (forall z, CCG_Model.x_active r z = true)
     /\ touching s (a_grid line) (a_val (heights two_rows)) (CCG_Model.x_offset r) Fs us /\ reported_energy s (a_grid line) us Es.
Proof.
  split.
  - destruct hsD_ok as [s H]. assert (Q : a_q0 hsD <> Some 0) by discriminate. pose proof hsD_pos as PA.
    destruct (gx_pos hsD s H) as [PX PY].
    destruct (Substrate_Contact.contact_exists _ _ PX PY _ (wave_pos hsD s H PA Q) (wave_Herm hsD s H) (fun x y => INR (x * y))) as [F C].
    set (U := fun d => comply (gx (a_grid hsD)) (gy (a_grid hsD)) (wave_compliance s) (F d)).
    set (en := fun d => inner (a_grid hsD) (F d) (U d) / 2).
    assert (FA : forall delta, touching s (a_grid hsD) (fun x y => INR (x * y)) delta (F delta) (U delta)
           /\ reported_energy s (a_grid hsD) (U delta) (en delta)).
    { intros delta. assert (T : touching s (a_grid hsD) (fun x y => INR (x * y)) delta (F delta) (U delta)) by apply (touching_iff hsD s H PA), C.
      split; [exact T|]. exact (proj1 (C97_energy hsD s H PA Q) _ _ (proj1 T)). }
    exists s, F, U, en. split; [exact H|]. split; [exact PA|]. split; [exact Q|]. split; [exact FA|].
    pose proof (C97_work hsD s _ F U en H PA Q FA) as (_ & _ & _ & Z). split.
    + apply Z. intros x y [Hx Hy]. change (gx (a_grid hsD)) with 4%nat in Hx. change (gy (a_grid hsD)) with 3%nat in Hy.
      assert (LE : (x * y <= 3 * 2)%nat) by (apply Nat.mul_le_mono; lia). apply le_INR in LE. cbn in LE. lra.
    + destruct (C93_stiffness hsD s H PA Q) as (k & KP & K & _).
      pose proof (C93_load_curve hsD s _ 1 1 _ _ _ _ k H PA Q (proj1 (FA 1)) (proj1 (FA 1)) (Rle_refl 1) K) as (_ & _ & L).
      assert (TL : 0 < total (a_grid hsD) (F 1)).
      { assert (MM : 0 < mean (a_grid hsD) (F 1)).
        { eapply Rlt_le_trans; [|exact L]. apply Rmult_lt_0_compat; [exact KP|].
          assert (0 <= mean (a_grid hsD) (fun x y => INR (x * y))); [|lra].
          unfold mean. apply Rmult_le_pos; [|left; apply Rinv_0_lt_compat; cbn; lra]. apply Rsum2_nonneg. intros. apply pos_INR. }
        pose proof (Substrate_Contact.mean_total _ _ PX PY (F 1)) as MT. change (Rsum2 (gx (a_grid hsD)) (gy (a_grid hsD)) (F 1)) with (total (a_grid hsD) (F 1)) in MT.
        rewrite MT. pose proof (Substrate_Contact.N_pos _ _ PX PY). apply Rmult_lt_0_compat; assumption. }
      unfold en. destruct (C97_least hsD s _ 1 _ _ _ H PA Q (proj1 (FA 1)) (proj2 (FA 1))) as (_ & _ & EQ).
      assert (LO : total (a_grid hsD) (F 1) <= inner (a_grid hsD) (F 1) (fun x y => INR (x * y) + 1)).
      { unfold inner, total. apply Rsum2_le. intros x y Hx Hy. destruct (proj2 (proj1 (FA 1)) x y (conj Hx Hy)) as (P0 & _). pose proof (pos_INR (x * y)). nra. }
      unfold en in EQ. lra.
  - destruct line_ok as [s H]. destruct (line_run s H) as (r & R1 & SU & ST & TA & AC).
    assert (Q : a_q0 line <> Some 0) by (cbn; intros Z; injection Z; lra).
    destruct (C93_one_state line s (a_val (heights two_rows)) (CCG_Model.x_offset r) H line_pos Q) as (Fs & us & T & _).
    exists s, r, Fs, us, (inner (a_grid line) Fs us / 2). split; [exact H|]. split; [exact line_pos|]. split; [exact Q|].
    split; [exact R1|]. split; [exact SU|]. split; [exact ST|]. split; [exact TA|]. split; [exact AC|]. split; [exact T|].
    exact (proj1 (C97_energy line s H line_pos Q) Fs us (proj1 T)).
Qed.
