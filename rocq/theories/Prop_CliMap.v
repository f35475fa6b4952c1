(** * The contact map of the command line (C92)

    [hw_main] with [hw_solver], and with the active set of the same solver call
    ([hw_active]) in the contact map. *)
From Coq Require Import Reals ZArith Lia Lra List Arith Bool String FunctionalExtensionality.
From Coquelicot Require Import Complex Coquelicot.
From Verif Require Import Py FFT_Base HalfSpace_Model HalfSpace_Spec HalfSpace_Proofs HalfSpace_Results
  HalfSpace_Results2 HalfSpace_Results3 Free_Model Free_Spec Free_Proofs Systems_Model Systems_Spec Systems_Proofs Factory_Model
  Pipeline_Model Pipeline_Spec Pipeline_Proofs Pipeline_Results Pipeline_More Contact_Model Contact_Spec Contact_Proofs Contact_Results Contact_Results2 Contact_Results3 Contact_Load Prop_Contact
  Signorini_Spec Signorini_Periodic Prop_Signorini
  HardWall_Model HardWall_Spec HardWall_Proofs HardWall_Results Prop_HardWall
  Cli_Model Cli_Spec Cli_Results Prop_Cli CliMap_Spec.
From Verif Require CCG_Model CCG_Real CCG_Spec CCG_Proofs CCG_Results CCG_Results2 CCG_Active CCG_Load.
From Coq Require Import List.
Import ListNotations.
Local Open Scope R_scope.

(** ** One calculation *)
Lemma count_lsum : forall A (f : A -> bool) l, INR (List.length (filter f l)) = CCG_Real.lsum l (fun p => if f p then 1 else 0).
Proof.
  intros A f l. unfold CCG_Real.lsum. induction l as [|a l IH]; [reflexivity|]. cbn [filter map fold_right].
  destruct (f a); [|rewrite <- IH; ring]. cbn [List.length]. rewrite S_INR, IH. ring.
Qed.

Section Calculation.
  Variable o : options.
  Variable sb : substrate.
  Variable sf : surface.
  Variables (force : option R) (off tol : R) (k : nat).
  Variables n m n' m' : nat.
  Hypothesis CS : comp_shape sb = [n; m].
  Hypothesis SB : sb_sub sb = [n'; m'].
  Hypothesis Ln : (n <= n')%nat.
  Hypothesis Lm : (m <= m')%nat.
  Notation c := (solver_cfg o sb sf None force off tol).
  Variable r : @CCG_Model.sresult R (pt (sb_sub sb)).
  Hypothesis Run : CCG_Spec.ccg c k = CCG_Model.Ok r.
  Notation z := (write (sb_sub sb) false (CCG_Model.x_active r)).

  Lemma map_point : forall x y, (x < n)%nat -> (y < m)%nat -> (x < gx (sb_sub sb))%nat /\ (y < gy (sb_sub sb))%nat.
  Proof. intros x y X Y. rewrite SB. cbn [gx gy nth]. lia. Qed.
  Lemma map_outside : forall x y, ~ ((x < n)%nat /\ (y < m)%nat) -> z x y = false.
  Proof.
    intros x y Q. destruct (le_lt_dec (gx (sb_sub sb)) x) as [G|G]; [apply write_out; lia|].
    destruct (le_lt_dec (gy (sb_sub sb)) y) as [G'|G']; [apply write_out; lia|].
    rewrite (write_in _ _ _ _ _ _ (conj G G')). apply (CCG_Active.active_surface c eq_refl k r Run). intro S.
    apply cfg_surface in S. rewrite CS in S. apply inside_true in S. exact (Q S).
  Qed.
  Lemma map_count : INR (CCG_Spec.n_active c r) = marked n m z.
  Proof.
    unfold CCG_Spec.n_active. rewrite cfg_grid, count_lsum, sum_points. unfold marked.
    assert (LX : (n <= gx (sb_sub sb))%nat) by (rewrite SB; exact Ln).
    assert (LY : (m <= gy (sb_sub sb))%nat) by (rewrite SB; exact Lm).
    rewrite <- (Rsum2_pad n m (gx (sb_sub sb)) (gy (sb_sub sb))) by assumption.
    apply Rsum2_ext. intros x y Hx Hy. rewrite (write_in _ _ _ _ _ _ (conj Hx Hy)).
    unfold inside. cbn [fst snd gx gy nth].
    destruct (Nat.ltb_spec x n) as [A|A]; [destruct (Nat.ltb_spec y m) as [B|B]|]; cbn [andb].
    - rewrite (write_in _ _ _ _ _ _ (conj Hx Hy)). reflexivity.
    - pose proof (map_outside x y ltac:(lia)) as Q. rewrite (write_in _ _ _ _ _ _ (conj Hx Hy)) in Q. rewrite Q. reflexivity.
    - pose proof (map_outside x y ltac:(lia)) as Q. rewrite (write_in _ _ _ _ _ _ (conj Hx Hy)) in Q. rewrite Q. reflexivity.
  Qed.

  Notation res := (result_object sb r).
  Hypothesis Su : CCG_Model.x_success r = true.
  Hypothesis St : CCG_Model.x_str r = CCG_Model.Cg.
  Hypothesis FP : forall F, force = Some F -> 0 <= F.
  Notation same F := (forall x y, (x < n)%nat -> (y < m)%nat -> a_val (o_jac res) x y = F / INR (size (sf_grid sf))).

  Lemma map_converged : forall x y, (x < n)%nat -> (y < m)%nat ->
    0 <= a_val (o_jac res) x y
    /\ - tol < gap (a_val (heights sf)) (o_offset res) (a_val (o_x res)) x y
    /\ (z x y = false -> a_val (o_jac res) x y = 0 \/ exists F, force = Some F /\ same F)
    /\ (z x y = true -> CCG_Model.x_tau r <> 0
          \/ (CCG_Model.x_nit r = 1%nat /\ CCG_Spec.compliant (points (sb_sub sb)) (respond (sb_sub sb) (sb_disp sb))) ->
        Rabs (gap (a_val (heights sf)) (o_offset res) (a_val (o_x res)) x y) < tol * (1 + sqrt (marked n m z))).
  Proof.
    intros x y X Y.
    destruct (CCG_Results2.converged_elastic c k r eq_refl FP Run Su St) as (L1 & L2 & L3 & L4).
    rewrite map_count, cfg_grid in L4.
    assert (OS : forall x y (X : (x < n)%nat) (Y : (y < m)%nat), CCG_Spec.on_surface c (at_pt (sb_sub sb) x y (map_point x y X Y))).
    { intros x0 y0 X0 Y0. apply cfg_surface. rewrite CS. apply inside_true. split; assumption. }
    set (q := at_pt (sb_sub sb) x y (map_point x y X Y)).
    assert (IQ : In q (CCG_Spec.grid c)) by apply cfg_covers.
    unfold gap. cbn [result_object o_jac o_x o_offset a_val]. rewrite !(write_in _ _ _ _ _ _ (map_point x y X Y)). fold q.
    assert (GQ : CCG_Spec.gap c r q = CCG_Model.x_x r q - a_val (heights sf) x y - CCG_Model.x_offset r) by reflexivity.
    rewrite <- GQ. split; [apply L2|]. split; [exact (L1 q IQ (OS x y X Y))|]. split.
    - intros A. destruct (L3 q A) as [E|(F & E & U)]; [left; exact E|right]. exists F. split; [exact E|]. intros x0 y0 X0 Y0.
      rewrite (write_in _ _ _ _ _ _ (map_point x0 y0 X0 Y0)). exact (U _ (OS x0 y0 X0 Y0)).
    - intros A T. apply (L4 T q (points_all _ q) (OS x y X Y) A).
  Qed.

  Lemma map_area : (0 < n)%nat -> (0 < m)%nat ->
    contact_points (o_jac res) <= marked n m z \/ exists F, force = Some F /\ same F.
  Proof.
    intros N M.
    assert (LE : ~ (exists F, force = Some F /\ same F) -> contact_points (o_jac res) <= marked n m z).
    { intros U. unfold contact_points, count_positive, amap. cbn [result_object o_jac a_shape a_val]. rewrite CS.
      rewrite asum_grid by (repeat split; try assumption; right; reflexivity). unfold HalfSpace_Spec.total, marked. cbn [gx gy nth].
      apply Signorini_Base.Rsum2_le. intros x y X Y. destruct (map_converged x y X Y) as (_ & _ & A & _).
      cbn [result_object o_jac a_val] in A.
      destruct (z x y); [destruct (Rlt_dec _ _); lra|]. destruct (A eq_refl) as [E|E]; [|exfalso; exact (U E)].
      rewrite E. destruct (Rlt_dec 0 0); lra. }
    destruct (Rle_dec (contact_points (o_jac res)) (marked n m z)) as [L|L]; [left; exact L|right].
    destruct (option_cases _ force) as [(F & E)|E].
    - exists F. split; [exact E|]. intros x y X Y. destruct (Req_dec (a_val (o_jac res) x y) (F / INR (size (sf_grid sf)))) as [Q|Q]; [exact Q|].
      exfalso. apply L, LE. intros (F' & E' & U). rewrite E in E'. injection E' as <-. exact (Q (U x y X Y)).
    - exfalso. apply L, LE. intros (F' & E' & U). rewrite E in E'. discriminate.
  Qed.
End Calculation.

(** ** The call of the solver *)
Lemma hw_call_inv : forall o rms sb sf hd off force pentol maxiter r,
  hw_call o rms sb sf hd off force pentol maxiter = CCG_Model.Ok r ->
  exists tol, chosen_tolerance rms sf off pentol = CCG_Model.Ok tol
    /\ CCG_Spec.ccg (solver_cfg o sb sf hd force (match off with Some x => x | None => 0 end) tol) maxiter = CCG_Model.Ok r.
Proof.
  intros o rms sb sf hd off force pentol maxiter r H. unfold hw_call, CCG_Model.solve, CCG_Model.solve_trace in H.
  cbn [CCG_Model.a_distributed CCG_Model.a_plain_array CCG_Model.a_offset CCG_Model.a_dim CCG_Model.a_maxiter andb] in H.
  destruct (chosen_tolerance rms sf off pentol) as [p|e] eqn:E.
  - exists p. split; [reflexivity|].
    match type of H with context [CCG_Model.choose_pentol ?K ?A ?h ?n] =>
      assert (E' : CCG_Model.choose_pentol K A h n = CCG_Model.Ok p) by exact E; rewrite E' in H; clear E' end.
    destruct (_ || _)%bool; cbn [negb snd] in H; [exact H|discriminate].
  - match type of H with context [CCG_Model.choose_pentol ?K ?A ?h ?n] =>
      assert (E' : CCG_Model.choose_pentol K A h n = CCG_Model.Raise e) by exact E; rewrite E' in H; clear E' end.
    discriminate.
Qed.

Lemma tolerated_chosen : forall rms a n m s tol, sf_grid (hd_before s) = [n; m] -> (0 < n)%nat -> (0 < m)%nat ->
  chosen_tolerance rms (hd_before s) (hd_off s) (hw_pentol a) = CCG_Model.Ok tol -> tolerated rms a n m s tol.
Proof.
  intros rms a n m s tol G N M H. unfold tolerated. unfold chosen_tolerance, CCG_Model.choose_pentol in H.
  cbn [CCG_Model.a_pentol CCG_Model.a_offset CCG_Model.a_rms CCG_Model.a_mean_n] in H.
  destruct (hw_pentol a) as [t|]; [injection H as H; congruence|].
  assert (MN : INR 10 * mean_nat (sf_grid (hd_before s)) = 10 * ((INR n + INR m) / 2)).
  { rewrite G. unfold mean_nat. cbn [fold_right List.length]. rewrite Nat.add_0_r, plus_INR. cbn [INR]. field. }
  assert (P : 0 < 10 * ((INR n + INR m) / 2)) by (pose proof (lt_0_INR n N); pose proof (lt_0_INR m M); lra).
  cbn [CCG_Real.ROps CCG_Model.odiv CCG_Model.omul CCG_Model.onat CCG_Model.oeqb CCG_Model.o0 CCG_Model.oadd CCG_Model.o1] in H.
  rewrite MN in H. cbv zeta. set (q := 10 * ((INR n + INR m) / 2)) in *.
  destruct (CCG_Real.Reqb (rms (hd_before s) / q) 0) eqn:E.
  - right. apply CCG_Real.Reqb_true in E. split.
    { replace (rms (hd_before s)) with (rms (hd_before s) / q * q) by (field; lra). rewrite E. ring. }
    destruct (hd_off s) as [x|]; [|discriminate]. exists x. split; [reflexivity|].
    assert (AM : asum (heights (hd_before s)) / INR (size (sf_grid (hd_before s))) = amean (heights (hd_before s))) by reflexivity.
    rewrite AM in H. set (d := x + amean (heights (hd_before s))) in *.
    assert (K : INR 1000 = 1000) by (rewrite INR_IZR_INZ; reflexivity). rewrite K in H.
    destruct (CCG_Real.Reqb (d / 1000) 0) eqn:E2; injection H as <-.
    + right. apply CCG_Real.Reqb_true in E2. split; [lra|reflexivity].
    + left. split; [|reflexivity]. intro Q. rewrite Q in E2. unfold Rdiv in E2. rewrite Rmult_0_l in E2.
      assert (T : CCG_Real.Reqb 0 0 = true) by (apply CCG_Real.Reqb_true; reflexivity). congruence.
  - left. injection H as <-. split; [|reflexivity]. intro Q. rewrite Q in E. unfold Rdiv in E. rewrite Rmult_0_l in E.
    assert (T : CCG_Real.Reqb 0 0 = true) by (apply CCG_Real.Reqb_true; reflexivity). congruence.
Qed.

(** Forces on the half-space of the command line do work. *)
Lemma cli_compliant : forall n m lx ly young nu hs, (2 <= n)%nat -> (2 <= m)%nat -> 0 < lx -> 0 < ly -> 0 < young -> -1 < nu < 1 ->
  construct (cli_periodic n m lx ly young nu None) = Ret hs -> forall g, g = [n; m] ->
  CCG_Spec.compliant (points g) (respond g (evaluate_disp hs)).
Proof.
  intros n m lx ly young nu hs N2 M2 X Y YO NU C0 g ->. intros f (z & _ & Z). set (g := [n; m]) in *.
  assert (TH : forall t, None = Some t -> 0 < t /\ nu < 1 / 2) by (intros t Q; discriminate Q).
  pose proof (cli_periodic_field n m lx ly young nu None X Y YO NU TH hs C0 (write g 0 (fun p => - f p))) as PF.
  fold g in PF. pose proof (modulus_pos young nu YO NU) as E.
  assert (A : 0 < cell_area n m lx ly).
  { unfold cell_area. apply Rdiv_lt_0_compat; [apply Rmult_lt_0_compat; assumption|]. apply lt_0_INR. nia. }
  apply periodic_scaled in PF; try assumption. set (e := contact_modulus young nu) in *. set (ar := cell_area n m lx ly) in *.
  assert (Ef : (fun p : pt g => - write g 0 (fun p => - f p) (px p) (py p)) = f).
  { apply FunctionalExtensionality.functional_extensionality. intros p. rewrite write_at. ring. }
  rewrite Ef in PF. clear Ef. set (u := write g 0 (respond g (evaluate_disp hs) f)) in *.
  set (p := fun x y : nat => write g 0 (fun p => - f p) x y / ar / e) in *.
  pose proof (response_Comp n m lx ly N2 M2 X Y p u PF) as U. rewrite sum_points. cbn [g gx gy nth].
  destruct (bounds_2 n m (sym n m lx ly) (sym_pos n m lx ly N2 M2 X Y)) as (a & b & PA & PB & F).
  pose proof (Comp_low n m lx ly N2 M2 a p (fun k l K L => proj1 (F k l K L))) as L.
  assert (PZ : p (px z) (py z) = - f z / ar / e) by (unfold p; rewrite write_at; reflexivity).
  pose proof (pt_inside g z) as IZ. cbn [g gx gy nth] in IZ. destruct IZ as [IX IY].
  assert (S : 0 < Rsum2 n m (fun x y => p x y * p x y)).
  { apply Rlt_le_trans with (p (px z) (py z) * p (px z) (py z)).
    - rewrite PZ. apply Rlt_0_sqr. unfold Rdiv. repeat apply Rmult_integral_contrapositive_currified; try (apply Rinv_neq_0_compat); lra.
    - apply (Signorini_Base.Rsum2_term n m (fun x y => p x y * p x y)); try assumption. intros. apply Rle_0_sqr. }
  fold g. replace (- Rsum2 n m (write g 0 (fun p0 : pt g => f p0 * respond g (evaluate_disp hs) f p0)))
    with (ar * e * Rsum2 n m (fun x y => p x y * Comp n m lx ly p x y)).
  - apply Rmult_lt_0_compat; [apply Rmult_lt_0_compat; assumption|]. eapply Rlt_le_trans; [|exact L]. apply Rmult_lt_0_compat; assumption.
  - replace (- Rsum2 n m (write g 0 (fun p0 : pt g => f p0 * respond g (evaluate_disp hs) f p0)))
      with (-1 * Rsum2 n m (write g 0 (fun p0 : pt g => f p0 * respond g (evaluate_disp hs) f p0))) by ring.
    rewrite <- !Rsum2_scal. apply Rsum2_ext. intros x y Hx Hy. rewrite <- (U x y Hx Hy). unfold u, p.
    rewrite !(write_in _ g _ _ x y (conj Hx Hy)). field. split; lra.
Qed.

(** A light load on a surface that does not reach the undeformed half-space:
    the solver spreads it evenly and stops, before any point is active. *)
Lemma light_active : forall o g sizes s sf p tol maxiter, construct (periodic_args g sizes) = Ret s -> positive_sizes sizes ->
  List.length g = 2%nat -> sf_grid sf = g -> 0 < uniform_stiffness g (cell_size sizes 0) (cell_size sizes 1) ->
  tolerant o tol -> (1 <= maxiter)%nat -> (forall i j, on_grid g i j -> a_val (heights sf) i j <= 0) -> 0 < p ->
  p < uniform_stiffness g (cell_size sizes 0) (cell_size sizes 1) * tol ->
  forall r, CCG_Spec.ccg (solver_cfg o (periodic s) sf None (Some (p * (area_per_pt (s_hs s) * INR (size g)))) 0 tol) maxiter = CCG_Model.Ok r ->
  (forall q, CCG_Model.x_active r q = false) /\ CCG_Model.x_success r = true
  /\ forall i j, on_grid g i j -> a_val (o_jac (result_object (periodic s) r)) i j = p * area_per_pt (s_hs s).
Proof.
  intros o g sizes s sf p tol maxiter CH PS L2 G KP T M HB PP LL r' E'.
  pose proof (half_space g sizes s CH) as HS. destruct (half_space_shapes _ _ _ _ HS) as (SG & CS & _).
  pose proof (area_positive g sizes s CH PS) as AP. pose proof (sub_grid g sizes s CH) as SB.
  destruct maxiter as [|n]; [lia|].
  set (force := p * (area_per_pt (s_hs s) * INR (size g))) in *.
  pose proof (count_pos o g sizes s sf CH L2 G force 0 tol) as CPos.
  pose proof (count_points o g sizes s sf CH L2 G force 0 tol) as CPts.
  pose proof (whole o g sizes s sf CH force 0 tol) as WH.
  set (c := solver_cfg o (periodic s) sf None (Some force) 0 tol) in *.
  assert (SZ : 0 < INR (size g)) by (apply lt_0_INR; unfold c, solver_cfg in CPos; cbn [CCG_Model.c_nsurf] in CPos; rewrite G in CPos; exact CPos).
  assert (F0 : force <> 0) by (unfold force; apply Rgt_not_eq; apply Rmult_lt_0_compat; [|apply Rmult_lt_0_compat]; assumption).
  assert (SPR : CCG_Load.spread c force = (fun _ => - (p * area_per_pt (s_hs s)))).
  { extensionality q. unfold CCG_Load.spread. rewrite WH. unfold c, solver_cfg. cbn [CCG_Model.c_nsurf]. rewrite G. unfold force. field. lra. }
  assert (DSP : CCG_Model.c_disp c (CCG_Load.spread c force) = (fun _ => p / uniform_stiffness g (cell_size sizes 0) (cell_size sizes 1))).
  { rewrite SPR. change (CCG_Model.c_disp c) with (respond (sb_sub (periodic s)) (evaluate_disp s)).
    rewrite (proj1 (respond_uniform g sizes s CH PS L2 KP _)). extensionality q. field. split; lra. }
  destruct (zero_response _ _ _ _ HS) as [Z1 Z2].
  assert (HB' : forall q, a_val (heights sf) (px q) (py q) <= 0) by (intros q; apply HB; exact (in_grid g sizes s CH q)).
  destruct (CCG_Load.light_load c eq_refl T force eq_refl CPos CPts n F0 eq_refl eq_refl eq_refl Z2 Z1) as (r & E & S1 & NI & J & X & OF).
  - intros q _. apply HB'.
  - intros q _. rewrite DSP. rewrite Rabs_pos_eq.
    + apply (Rmult_lt_reg_r (uniform_stiffness g (cell_size sizes 0) (cell_size sizes 1))); [exact KP|].
      unfold c, solver_cfg. cbn [CCG_Model.c_pentol]. replace (p / uniform_stiffness g (cell_size sizes 0) (cell_size sizes 1) * uniform_stiffness g (cell_size sizes 0) (cell_size sizes 1)) with p by (field; lra).
      lra.
    + apply Rlt_le, Rdiv_lt_0_compat; assumption.
  - rewrite E in E'. injection E' as <-. split; [|split; [exact S1|]].
    + intros q. rewrite (CCG_Active.active_first c eq_refl _ r E NI). apply Bool.not_true_iff_false. intro Q. apply CCG_Real.Rltb_true in Q.
      revert Q. unfold CCG_Model.init_state. cbn [CCG_Model.s_f CCG_Real.ROps CCG_Model.mat CCG_Model.oltb CCG_Model.oadd CCG_Model.o0].
      change (CCG_Model.c_f0 c) with (@None (pt (sb_sub (periodic s)) -> R)). change (CCG_Model.c_u0 c) with (@None (pt (sb_sub (periodic s)) -> R)). cbv iota beta.
      replace (fun p0 : pt (sb_sub (periodic s)) => if CCG_Model.comp c p0 then
          if CCG_Real.Rltb 0 (CCG_Model.c_h c p0 + CCG_Model.c_offset c) then CCG_Model.c_h c p0 + CCG_Model.c_offset c else 0 else 0)
        with (fun _ : pt (sb_sub (periodic s)) => 0).
      * assert (Z3 : CCG_Model.c_force c (fun _ => 0) q = 0) by apply Z2. rewrite Z3. destruct (CCG_Model.pad c q); lra.
      * extensionality q'. destruct (CCG_Model.comp c q'); [|reflexivity]. destruct (CCG_Real.Rltb _ _) eqn:Q2; [|reflexivity].
        apply CCG_Real.Rltb_true in Q2. specialize (HB' q'). exfalso.
        assert (Q3 : CCG_Model.c_h c q' + CCG_Model.c_offset c = a_val (heights sf) (px q') (py q') + 0) by reflexivity. lra.
    + intros i j GI. cbn [result_object o_jac a_val].
      assert (GI' : (i < gx (sb_sub (periodic s)))%nat /\ (j < gy (sb_sub (periodic s)))%nat) by (rewrite SB; exact GI).
      rewrite (write_in _ _ _ _ _ _ GI'), J, SPR. ring.
Qed.

Section Theorems.
  Variable o : options.
  Variable rms : surface -> R.
  Variable float_of : string -> res R.
  Variable int_of : string -> res Z.
  Variable detrend : string -> surface -> res surface.
  Variable load : option string -> res scanned.
  Variable file_unit : option string.
  (** The program; [sb] is the substrate of the arguments. *)
  Notation active sb a := (hw_active o rms sb None (hw_pentol a) (hw_maxiter a)).
  Notation main sb a := (hw_main float_of int_of detrend load file_unit (hw_solver o rms) (active sb a) a).
  Notation read := (read_surface detrend load file_unit).
  Notation ask := (asked float_of int_of).

  (** Every contact map of an elastic run belongs to one of the calculations:
      it has the shape of the computational grid and marks no point without
      topography.  If the calculation converged with last status [cg], nothing
      pulls, no point penetrates by more than the tolerance, and unmarked points
      are free of pressure, unless the prescribed pressure acts everywhere;
      after a step, marked points are close to the surface. *)
  Theorem C92_map : forall a ev t sb young n m lx ly q, main sb a = (ev, Ret tt) -> hw_displacement a = None -> hw_hardness a = None ->
    read a = Ret t -> hw_substrate a t = Ret (sb, young) -> scanned_as t n m lx ly -> physical a lx ly -> ask a q ->
    exists ss, rows ev = map (row_of (lx * ly)) ss
      /\ frames ev = (if hw_netcdf a then map frame_of ss else [])
      /\ hw_explains (hw_solver o rms) a sb (lx * ly) (sc_surface t) (fst (plan q)) ss /\ List.length ss = List.length (fst (plan q))
      /\ (forall fn i s, hw_contact_fn a = Some fn -> nth_error ss i = Some s ->
          exists sh z, In (file_name (snd (plan q)) fn i, WContact sh z) (files ev))
      /\ forall name sh z, In (name, WContact sh z) (files ev) ->
         exists fn i s, hw_contact_fn a = Some fn /\ nth_error ss i = Some s /\ name = file_name (snd (plan q)) fn i
           /\ (hw_boundary a = "periodic"%string -> sh = [n; m])
           /\ (hw_boundary a = "nonperiodic"%string -> sh = [2 * n; 2 * m]%nat)
           /\ (forall x y, ~ ((x < n)%nat /\ (y < m)%nat) -> z x y = false)
           /\ exists r tol, hw_call o rms sb (sc_surface t) None (hd_off s) (hd_force s) (hw_pentol a) (hw_maxiter a) = CCG_Model.Ok r
              /\ hd_opt s = result_object sb r /\ tolerated rms a n m s tol
              /\ (o_success (hd_opt s) = true -> CCG_Model.x_str r = CCG_Model.Cg -> (forall l p, q = Some l -> In p l -> 0 <= p) ->
                  let p := pressures n m lx ly (forces s) in
                  let g := gap (a_val (heights (sc_surface t))) (hd_position s) (a_val (hd_u s)) in
                  let everywhere := q <> None /\ uniform_pressure n m p (hd_load s) in
                  (forall x y, (x < n)%nat -> (y < m)%nat -> 0 <= p x y /\ - tol < g x y
                     /\ (z x y = false -> p x y = 0 \/ everywhere)
                     /\ (z x y = true -> CCG_Model.x_tau r <> 0 \/ (CCG_Model.x_nit r = 1%nat /\ half_space_run a n m) ->
                         Rabs (g x y) < tol * (1 + sqrt (marked n m z))))
                  /\ (contact_points (forces s) <= marked n m z \/ everywhere)).
  Proof.
    intros a ev t sb young n m lx ly q H D EL Rd Sb SC PH A.
    destruct (C67_output _ _ _ _ _ _ _ _ _ _ H D) as [[_ [e Q]]|(t' & sb' & young' & q' & ss & Rd' & Sb' & A' & Ex & Rw & Fr & So & Fin)]; [discriminate|].
    rewrite Rd in Rd'. injection Rd' as <-. rewrite Sb in Sb'. injection Sb' as <- <-. rewrite (C67_asked _ _ _ _ _ A' A D) in *. clear A' q'.
    pose proof SC as (G & SZ & AR). pose proof PH as (LX & LY & YO & NU & _). rewrite SZ in Ex, Rw. cbn [fold_right] in Ex, Rw. rewrite Rmult_1_r in Ex, Rw.
    exists ss. split; [exact Rw|]. split; [exact Fr|]. split; [exact Ex|]. split; [exact (proj1 (Fin eq_refl))|]. split.
    { intros fn i s O Ns. destruct (proj2 (Fin eq_refl) KContact fn i s O Ns) as (w & IW & ->). eexists. eexists. exact IW. }
    intros name sh z I.
    destruct (So _ _ I) as (k & fn & i & s & O & Ns & -> & M).
    destruct k; cbn [map_of] in M; try (destruct M as (? & M)); try (destruct M as (_ & M)); try discriminate M. injection M as -> ->.
    exists fn, i, s. split; [exact O|]. split; [exact Ns|]. split; [reflexivity|].
    pose proof (nth_error_In _ _ Ns) as Is. destruct (hx_elastic _ _ _ _ _ _ _ Ex EL s Is) as [B0 B1].
    pose proof (hx_solver _ _ _ _ _ _ _ Ex s Is) as S. rewrite EL, B0 in S. cbv iota in S.
    destruct (cli_shapes _ _ _ _ _ _ _ _ Sb G SZ) as (CS & n' & m' & SB & L1 & L2).
    destruct (hw_substrate_inv _ _ _ _ _ _ Sb G) as (_ & _ & N & M & _).
    destruct (cli_calculation o rms _ _ _ _ _ _ _ _ _ _ _ _ _ _ Rd Sb SC PH Ex s Is) as (_ & _ & UV & _).
    unfold hw_solver in S. destruct (hw_call o rms sb (sc_surface t) None (hd_off s) (hd_force s) (hw_pentol a) (hw_maxiter a)) as [r|e] eqn:CA; [|discriminate].
    injection S as S. rewrite B0. unfold hw_active. rewrite CA.
    assert (OX : a_shape (o_x (hd_opt s)) = sb_sub sb) by (rewrite <- S; reflexivity). rewrite OX.
    split.
    { intros B. destruct (substrate_cases _ _ _ _ _ _ _ _ Sb G SZ) as [(_ & hs & C0 & ->)|(Q & _)]; [|congruence]. exact (hs_grid _ _ C0). }
    split.
    { intros B. destruct (substrate_cases _ _ _ _ _ _ _ _ Sb G SZ) as [(Q & _)|(_ & _ & hs & C0 & ->)]; [congruence|].
      destruct (free_inv _ _ C0) as (_ & _ & Dm & _). exact Dm. }
    destruct (hw_call_inv _ _ _ _ _ _ _ _ _ _ CA) as (tol & CT & RUN).
    split; [eapply map_outside; eassumption|].
    exists r, tol. split; [reflexivity|]. split; [symmetry; exact S|].
    split; [apply tolerated_chosen; [rewrite B0; exact G|assumption|assumption|rewrite B0; exact CT]|].
    intros Su St PN. set (p := pressures n m lx ly (forces s)).
    set (g := gap (a_val (heights (sc_surface t))) (hd_position s) (a_val (hd_u s))).
    set (everywhere := q <> None /\ uniform_pressure n m p (hd_load s)).
    (* how the calculation was called *)
    assert (CALL : hd_position s = o_offset (hd_opt s)
       /\ (hd_force s = None \/ (q <> None /\ hd_force s = Some (hd_load s * (lx * ly)) /\ 0 <= hd_load s))).
    { destruct (Fin eq_refl) as [Len _]. destruct q as [l|]; cbn [plan fst] in Ex, Len.
      - rewrite map_length in Len. destruct (nth_error l i) as [p0|] eqn:Np.
        2: { apply nth_error_None in Np. assert (nth_error ss i <> None) by congruence. apply nth_error_Some in H0. lia. }
        destruct (hx_pressures _ _ _ _ _ _ _ Ex i p0 s) as (_ & F0 & P0 & L0); [rewrite nth_error_map, Np; reflexivity|exact Ns|].
        split; [exact P0|]. right. rewrite L0, F0. split; [discriminate|]. split; [reflexivity|]. exact (PN l p0 eq_refl (nth_error_In _ _ Np)).
      - destruct (hx_next _ _ _ _ _ _ _ Ex (fun c0 I0 => repeat_spec _ _ _ I0) i s Ns) as (F0 & O0 & _). split; [|left; exact F0].
        rewrite <- S. cbn [result_object o_offset]. rewrite O0 in RUN. apply CCG_Proofs.offset_kept in RUN; [|rewrite F0; reflexivity].
        rewrite RUN. reflexivity. }
    destruct CALL as [PO FC].
    assert (FP : forall F, hd_force s = Some F -> 0 <= F).
    { intros F Q. destruct FC as [FC|(_ & FC & LP)]; [congruence|]. rewrite FC in Q. injection Q as <-.
      apply Rmult_le_pos; [exact LP|]. apply Rlt_le, Rmult_lt_0_compat; assumption. }
    assert (CA0 : 0 < cell_area n m lx ly).
    { unfold cell_area. apply Rdiv_lt_0_compat; [apply Rmult_lt_0_compat; assumption|]. apply lt_0_INR. nia. }
    assert (SAME : (exists F, hd_force s = Some F /\ forall x y, (x < n)%nat -> (y < m)%nat ->
        a_val (o_jac (result_object sb r)) x y = F / INR (size (sf_grid (sc_surface t)))) -> everywhere).
    { intros (F & EF & U). destruct FC as [FC|(NQ & FC & _)]; [congruence|]. rewrite FC in EF. injection EF as <-.
      split; [exact NQ|]. intros x y X Y. unfold p, pressures, forces. rewrite <- S, (U x y X Y), G.
      unfold cell_area, size. cbn [fold_right]. rewrite Nat.mul_1_r. field.
      repeat split; try lra. apply not_0_INR. nia. }
    assert (Su' : CCG_Model.x_success r = true) by (rewrite <- S in Su; exact Su).
    split.
    - intros x y X Y.
      destruct (map_converged o sb (sc_surface t) (hd_force s) _ tol (hw_maxiter a) n m n' m' CS SB L1 L2 r RUN Su' St FP x y X Y) as (C1 & C2 & C3 & C4).
      assert (GE : g x y = gap (a_val (heights (sc_surface t))) (o_offset (result_object sb r)) (a_val (o_x (result_object sb r))) x y).
      { unfold g. rewrite UV, PO, <- S. reflexivity. }
      assert (PE : p x y = a_val (o_jac (result_object sb r)) x y / cell_area n m lx ly) by (unfold p, pressures, forces; rewrite <- S; reflexivity).
      rewrite GE, PE. split; [apply Rmult_le_pos; [exact C1|apply Rlt_le, Rinv_0_lt_compat; exact CA0]|]. split; [exact C2|]. split.
      + intros Z. destruct (C3 Z) as [E|E]; [left; rewrite E; unfold Rdiv; ring|right; exact (SAME E)].
      + intros Z T. apply (C4 Z). destruct T as [T|[T (B & T0 & N2 & M2)]]; [left; exact T|right]. split; [exact T|].
        destruct (substrate_cases _ _ _ _ _ _ _ _ Sb G SZ) as [(_ & hs & C0 & E)|(Q & _)]; [|congruence].
        rewrite E. cbn [periodic sb_sub sb_disp]. rewrite T0 in C0.
        apply (cli_compliant n m lx ly (hw_modulus a) (hw_poisson a)); try assumption. exact (hs_grid _ _ C0).
    - destruct (map_area o sb (sc_surface t) (hd_force s) _ tol (hw_maxiter a) n m n' m' CS SB L1 L2 r RUN Su' St FP N M) as [E|E].
      + left. unfold forces. rewrite <- S. exact E.
      + right. exact (SAME E).
  Qed.

  (** The contact map does not show the contact: under a light load on the
      half-space every point carries pressure, the reported contact area is the
      whole surface, and no point is marked. *)
  Theorem C92_light_refuted : forall a ev t sb young n m lx ly tol p fn, main sb a = (ev, Ret tt) -> hw_displacement a = None -> hw_hardness a = None ->
    read a = Ret t -> hw_substrate a t = Ret (sb, young) -> scanned_as t n m lx ly -> 0 < lx -> 0 < ly ->
    half_space_run a n m -> hw_modulus a = 1 -> hw_poisson a = 0 -> hw_pentol a = Some tol -> tolerant o tol -> (1 <= hw_maxiter a)%nat ->
    ask a (Some [p]) -> 0 < p -> p < uniform [n; m] lx ly * tol ->
    (forall i j, (i < n)%nat -> (j < m)%nat -> a_val (heights (sc_surface t)) i j <= 0) -> hw_contact_fn a = Some fn ->
    exists row z, rows ev = [row] /\ r_fraction row = 1 /\ r_pressure row = p
      /\ In (fn, WContact [n; m] z) (files ev) /\ marked n m z = 0.
  Proof.
    intros a ev t sb young n m lx ly tol p fn H D EL Rd Sb SC LX LY HS MO PO PT TO MI A PP LL HB CF.
    pose proof HS as (B & T0 & N2 & M2).
    destruct (C67_output _ _ _ _ _ _ _ _ _ _ H D) as [[_ [e Q]]|(t' & sb' & young' & q' & ss & Rd' & Sb' & A' & Ex & Rw & _ & _ & Fin)]; [discriminate|].
    rewrite Rd in Rd'. injection Rd' as <-. rewrite Sb in Sb'. injection Sb' as <- <-. rewrite (C67_asked _ _ _ _ _ A' A D) in *. clear A' q'.
    pose proof SC as (G & SZ & AR). rewrite SZ in Ex, Rw. cbn [fold_right] in Ex, Rw. rewrite Rmult_1_r in Ex, Rw.
    destruct (Fin eq_refl) as [Len MC]. clear Fin. cbn [plan fst snd map List.length] in Ex, Len, MC. destruct ss as [|s [|? ?]]; try discriminate Len. clear Len.
    destruct (hx_pressures _ _ _ _ _ _ _ Ex 0%nat p s eq_refl eq_refl) as (O0 & F0 & P0 & L0).
    destruct (hx_elastic _ _ _ _ _ _ _ Ex EL s (or_introl eq_refl)) as [B0 B1].
    pose proof (hx_solver _ _ _ _ _ _ _ Ex s (or_introl eq_refl)) as S. rewrite EL, B0, O0, F0 in S. cbv iota in S.
    unfold hw_solver in S. destruct (hw_call o rms sb (sc_surface t) None None (Some (p * (lx * ly))) (hw_pentol a) (hw_maxiter a)) as [r|e] eqn:CA; [|discriminate].
    injection S as S. destruct (hw_call_inv _ _ _ _ _ _ _ _ _ _ CA) as (tol' & CT & RUN).
    rewrite PT in CT. injection CT as <-.
    destruct (substrate_cases _ _ _ _ _ _ _ _ Sb G SZ) as [(_ & hs & C0 & E)|(Q & _)]; [|congruence]. subst sb.
    rewrite MO, PO, T0 in C0. change (cli_periodic n m lx ly 1 0 None) with (periodic_args [n; m] [lx; ly]) in C0.
    assert (AE : area_per_pt (s_hs hs) = cell_area n m lx ly /\ 0 < cell_area n m lx ly) by exact (cli_area n m lx ly 1 0 None LX LY hs C0).
    destruct AE as [AE AP].
    assert (NM : 0 < INR (n * m)) by (apply lt_0_INR; nia).
    assert (FE : p * (lx * ly) = p * (area_per_pt (s_hs hs) * INR (size [n; m]))).
    { rewrite AE. unfold cell_area, size. cbn [fold_right]. rewrite Nat.mul_1_r. field. lra. }
    rewrite FE in RUN.
    assert (K0 : 0 < uniform_stiffness [n; m] lx ly) by (apply k0_pos; assumption).
    destruct (light_active o [n; m] [lx; ly] hs (sc_surface t) p tol (hw_maxiter a) C0 (positive_two _ _ LX LY) eq_refl G K0 TO MI
      (fun i j GI => HB i j (proj1 GI) (proj2 GI)) PP LL r RUN) as (AC & Su & J).
    assert (SH : a_shape (forces s) = [n; m]) by (unfold forces; rewrite <- S; cbn [result_object o_jac a_shape]; apply (cli_shapes _ _ _ _ _ _ _ _ Sb G SZ)).
    assert (FS : forces s = mkArr [n; m] (a_val (forces s))) by (destruct (forces s) as [sh v]; cbn [a_shape] in SH; rewrite SH; reflexivity).
    assert (JV : forall i j, (i < n)%nat -> (j < m)%nat -> a_val (forces s) i j = p * cell_area n m lx ly).
    { intros i j I0 J0. unfold forces. rewrite <- S, <- AE. apply J. exact (conj I0 J0). }
    assert (OG : okgrid [n; m]) by (repeat split; try (cbn; lia); right; reflexivity).
    exists (row_of (lx * ly) s), (write (sb_sub (periodic hs)) false (CCG_Model.x_active r)).
    split; [exact Rw|]. split; [|split; [|split]].
    - cbn [row_of r_fraction]. rewrite B0, G. unfold contact_points, count_positive, amap. rewrite SH, asum_grid by exact OG.
      unfold HalfSpace_Spec.total. cbn [gx gy nth].
      rewrite (Rsum2_ext _ _ _ (fun _ _ => 1)).
      + rewrite Rsum2_const. unfold size. cbn [fold_right]. rewrite Nat.mul_1_r, mult_INR. field. split; apply not_0_INR; lia.
      + intros i j I0 J0. rewrite (JV i j I0 J0). destruct (Rlt_dec 0 _) as [_|NN]; [reflexivity|]. exfalso. apply NN. apply Rmult_lt_0_compat; assumption.
    - cbn [row_of r_pressure]. rewrite FS, asum_grid by exact OG. unfold HalfSpace_Spec.total. cbn [gx gy nth].
      rewrite (Rsum2_ext _ _ _ (fun _ _ => p * cell_area n m lx ly)) by exact JV. rewrite Rsum2_const. unfold cell_area. rewrite mult_INR. field.
      repeat split; try lra; apply not_0_INR; lia.
    - destruct (MC KContact fn 0%nat s CF eq_refl) as (w & IW & MW). cbn [map_of] in MW. cbn [Nat.eqb] in IW. rewrite (proj2 (C67_names fn fn 0 0)) in IW.
      rewrite MW in IW. rewrite B0, O0, F0 in IW. unfold hw_active in IW. rewrite CA in IW.
      replace (a_shape (o_x (hd_opt s))) with [n; m] in IW; [exact IW|]. rewrite <- S. cbn [result_object o_x a_shape]. symmetry. exact (hs_grid _ _ C0).
    - unfold marked. rewrite (Rsum2_ext _ _ _ (fun _ _ => 0)).
      + rewrite Rsum2_const. ring.
      + intros i j I0 J0. assert (GI : (i < gx (sb_sub (periodic hs)))%nat /\ (j < gy (sb_sub (periodic hs)))%nat).
        { assert (SB : sb_sub (periodic hs) = [n; m]) by exact (hs_grid _ _ C0). rewrite SB. exact (conj I0 J0). }
        rewrite (write_in _ _ _ _ _ _ GI), AC. reflexivity.
  Qed.
End Theorems.
Print Assumptions C92_map.
Print Assumptions C92_light_refuted.

(** ** Runs that meet the hypotheses *)
Definition map_args (p : option string) : hw_args :=
  mkHw None "periodic" 1 0 None None 100 None p None None None None (Some (1 / 100)) (Some "c"%string) None None None true.
Definition map_load (v w : R) : option string -> res scanned := fun _ => Ret (mkScan (Prop_Contact.rows v w) [1; 1] true).
(** Every number is a thousandth. *)
Definition map_float : string -> res R := fun _ => Ret (1 / 1000).
Notation map_cli v w sb p := (hw_main map_float ex_int ex_detrend (map_load v w) (Some "m"%string) (hw_solver usual (fun _ => 0))
  (hw_active usual (fun _ => 0) sb None (Some (1 / 100)) 100) (map_args p)).

Lemma map_scanned : forall v w, scanned_as (mkScan (Prop_Contact.rows v w) [1; 1] true) 2 2 1 1.
Proof. intros. split; [reflexivity|]. split; [reflexivity|]. unfold cell_area. cbn. field. Qed.
Lemma map_physical : forall p, physical (map_args p) 1 1.
Proof. intros. unfold physical. cbn. repeat split; try lra; discriminate. Qed.
Lemma map_runs : forall v w p q, asked map_float ex_int (map_args p) q ->
  exists sb young, hw_substrate (map_args p) (mkScan (Prop_Contact.rows v w) [1; 1] true) = Ret (sb, young)
    /\ exists ev, map_cli v w sb p = (ev, Ret tt).
Proof.
  intros v w p q A.
  destruct (hw_substrate_ok (map_args p) (mkScan (Prop_Contact.rows v w) [1; 1] true) 2 2 1 1) as (sb & young & Sb);
    try reflexivity; try lia; [left; reflexivity|left; reflexivity|cbn; lra|].
  exists sb, young. split; [exact Sb|].
  eapply C91_runs with (n := 2%nat) (m := 2%nat) (lx := 1) (ly := 1) (q := q) (t := mkScan (Prop_Contact.rows v w) [1; 1] true);
    try reflexivity; try lia; try exact A; try (left; reflexivity).
  - cbn. lra.
  - change (hw_maxiter (map_args p)) with 100%nat. lia.
  - left. unfold map_args. cbn [hw_pentol]. intro Q. discriminate Q.
Qed.

(** The first calculation of an automatic run on a surface of two rows: the
    upper row is in contact and marked. *)
Example C92_nonvacuous : exists sb young ev s z,
  hw_substrate (map_args None) (mkScan (Prop_Contact.rows (1 / 2) (- 1 / 2)) [1; 1] true) = Ret (sb, young)
  /\ map_cli (1 / 2) (- 1 / 2) sb None = (ev, Ret tt)
  /\ (exists rs, rows ev = row_of 1 s :: rs) /\ In ("c.0"%string, WContact [2; 2]%nat z) (files ev)
  /\ half_space_run (map_args None) 2 2 /\ physical (map_args None) 1 1
  /\ o_success (hd_opt s) = true
  /\ (exists r, hw_call usual (fun _ => 0) sb (Prop_Contact.rows (1 / 2) (- 1 / 2)) None (hd_off s) (hd_force s) (Some (1 / 100)) 100 = CCG_Model.Ok r
      /\ CCG_Model.x_str r = CCG_Model.Cg /\ CCG_Model.x_nit r = 1%nat)
  /\ forall x y, (x < 2)%nat -> (y < 2)%nat -> z x y = Nat.eqb x 0.
Proof.
  set (a := map_args None). set (t := mkScan (Prop_Contact.rows (1 / 2) (- 1 / 2)) [1; 1] true).
  assert (A : asked map_float ex_int a None) by (constructor; reflexivity).
  destruct (map_runs (1 / 2) (- 1 / 2) None None A) as (sb & young & Sb & ev & E). fold a in E. fold a t in Sb.
  assert (Rd : read_surface ex_detrend (map_load (1 / 2) (- 1 / 2)) (Some "m"%string) a = Ret t) by reflexivity.
  assert (HR : half_space_run a 2 2) by (repeat split; lia).
  destruct (C92_map usual (fun _ => 0) map_float ex_int ex_detrend (map_load (1 / 2) (- 1 / 2)) (Some "m"%string) a ev t sb young 2 2 1 1 None
    E eq_refl eq_refl Rd Sb (map_scanned _ _) (map_physical None) A) as (ss & Rw & Fr & Ex & Len & FC & CM).
  cbn [plan fst snd] in Ex, Len, FC, CM. destruct ss as [|s ss]; [discriminate Len|].
  destruct (FC "c"%string 0%nat s eq_refl eq_refl) as (sh & z & IZ).
  destruct (CM _ _ _ IZ) as (fn & i & s' & F1 & N1 & NM & SH & _ & _ & r & tol & CA & RS & TO & CV).
  apply (proj1 (C67_names _ _ _ _)) in NM. destruct NM as [_ <-]. cbn [nth_error] in N1. injection N1 as <-.
  cbv [tolerated] in TO. change (hw_pentol a) with (Some (1 / 100)) in TO, CA. cbv iota in TO. subst tol. rewrite (SH eq_refl) in IZ. clear SH FC CM.
  destruct (hx_next _ _ _ _ _ _ _ Ex (fun c0 I0 => repeat_spec _ _ _ I0) 0%nat s eq_refl) as (F0 & O0 & _ & top & bot & _ & _ & CHO).
  destruct (hx_elastic _ _ _ _ _ _ _ Ex eq_refl s (or_introl eq_refl)) as [B0 _].
  assert (X0 : hd_position s = 0).
  { specialize (CHO ltac:(cbn; lia)). cbn [firstn map] in CHO. cbv [chosen] in CHO. rewrite B0 in CHO.
    replace (amean (heights (sc_surface t))) with 0 in CHO; [lra|]. unfold amean, asum, t. cbn. field. }
  destruct (substrate_cases _ _ _ _ _ _ _ _ Sb eq_refl eq_refl) as [(_ & hs & C0 & EQ)|(Q & _)]; [|discriminate Q]. subst sb.
  change (cli_periodic 2 2 1 1 (hw_modulus a) (hw_poisson a) (hw_thickness a)) with (periodic_args [2; 2]%nat [1; 1]) in C0.
  rewrite F0, O0, X0 in CA. pose proof CA as CA'. destruct (hw_call_inv _ _ _ _ _ _ _ _ _ _ CA') as (tol' & CT & RUN).
  injection CT as <-.
  destruct (solver_start usual [2; 2]%nat [1; 1] hs (sc_surface t) (mkSa (Some 0) None (1 / 100) 100) 0 half_pressure half_disp C0
    (positive_two _ _ Rlt_0_1 Rlt_0_1) eq_refl eq_refl) as (r' & E' & St & Ni & _ & Su & _ & V); try reflexivity.
  { unfold tolerant, usual. cbn. lra. }
  { cbn. lia. }
  { exact (proj1 half_contact). }
  { intros i j GI. destruct half_contact as [_ HC]. destruct (HC i j GI) as (C1 & C2 & C3). split; [|split; [exact C1|exact C3]].
    unfold half_disp, t. cbn. destruct (Nat.eqb i 0); [rewrite Rmax_right|rewrite Rmax_left]; lra. }
  cbn [sa_force sa_pentol sa_maxiter] in E'. change (hw_maxiter a) with 100%nat in RUN. rewrite E' in RUN. injection RUN as ->.
  assert (Su' : o_success (hd_opt s) = true) by (rewrite RS; exact Su).
  destruct (cli_calculation usual (fun _ => 0) ex_detrend (map_load (1 / 2) (- 1 / 2)) (Some "m"%string) _ _ _ _ _ _ _ _ _ _ _ Rd Sb (map_scanned _ _) (map_physical None) Ex s (or_introl eq_refl)) as (_ & _ & UV & _).
  exists (periodic hs), young, ev, s, z. split; [exact Sb|]. split; [exact E|]. split; [exists (map (row_of 1) ss); rewrite Rw; cbn [map]; rewrite Rmult_1_r; reflexivity|].
  split; [exact IZ|]. split; [exact HR|]. split; [exact (map_physical None)|]. split; [exact Su'|].
  split; [exists r; rewrite F0, O0, X0; exact (conj CA (conj St Ni))|].
  destruct (CV Su' St (fun l p Q => ltac:(discriminate Q))) as [PT _]. intros x y X Y. destruct (PT x y X Y) as (_ & _ & P0 & P1).
  destruct (V x y (conj X Y)) as [VJ VU].
  destruct (Nat.eqb_spec x 0) as [->|NX].
  - destruct (z 0%nat y) eqn:Z; [reflexivity|exfalso]. destruct (P0 eq_refl) as [Q|[Q _]]; [|congruence].
    unfold pressures, forces in Q. rewrite RS, VJ in Q. unfold half_pressure in Q. cbn [Nat.eqb] in Q.
    pose proof (area_positive [2; 2]%nat [1; 1] hs C0 (positive_two _ _ Rlt_0_1 Rlt_0_1)) as AP. pose proof PI_RGT_0.
    assert (0 < PI / 2 * area_per_pt (s_hs hs) / cell_area 2 2 1 1); [|lra].
    apply Rdiv_lt_0_compat; [apply Rmult_lt_0_compat; lra|]. unfold cell_area. cbn. lra.
  - destruct (z x y) eqn:Z; [exfalso|reflexivity]. specialize (P1 eq_refl (or_intror (conj Ni HR))).
    rewrite UV, RS, X0 in P1. unfold gap in P1. rewrite VU in P1. unfold half_disp in P1.
    destruct (Nat.eqb_spec x 0) as [|_]; [contradiction|].
    assert (HX : a_val (heights (sc_surface t)) x y = - 1 / 2) by (unfold t; cbn; destruct x as [|x]; [contradiction|cbn; lra]).
    rewrite HX in P1. replace (0 - - 1 / 2 - 0) with (1 / 2) in P1 by lra. rewrite Rabs_right in P1 by lra.
    assert (MK : marked 2 2 z <= 4).
    { unfold marked, Rsum2. cbn. repeat match goal with |- context [if ?b then _ else _] => destruct b end; lra. }
    assert (sqrt (marked 2 2 z) <= 2); [|lra].
    replace 2 with (sqrt 4); [apply sqrt_le_1_alt; exact MK|]. replace 4 with (2 * 2) by lra. apply sqrt_square. lra.
Qed.

(** A load of a thousandth on a surface that does not reach the undeformed
    half-space. *)
Example C92_nonvacuous_light : exists sb young ev row z,
  hw_substrate (map_args (Some "0.001"%string)) (mkScan (Prop_Contact.rows (- 1) (- 2)) [1; 1] true) = Ret (sb, young)
  /\ map_cli (- 1) (- 2) sb (Some "0.001"%string) = (ev, Ret tt)
  /\ rows ev = [row] /\ r_fraction row = 1 /\ r_pressure row = 1 / 1000
  /\ In ("c"%string, WContact [2; 2]%nat z) (files ev) /\ marked 2 2 z = 0.
Proof.
  set (a := map_args (Some "0.001"%string)). set (t := mkScan (Prop_Contact.rows (- 1) (- 2)) [1; 1] true).
  assert (A : asked map_float ex_int a (Some [1 / 1000])) by (eapply AskedOne; [reflexivity| |reflexivity]; repeat constructor; discriminate).
  destruct (map_runs (- 1) (- 2) (Some "0.001"%string) _ A) as (sb & young & Sb & ev & E). fold a in E. fold a t in Sb.
  destruct (C92_light_refuted usual (fun _ => 0) map_float ex_int ex_detrend (map_load (- 1) (- 2)) (Some "m"%string) a ev t sb young 2 2 1 1
    (1 / 100) (1 / 1000) "c"%string E eq_refl eq_refl eq_refl Sb (map_scanned _ _) Rlt_0_1 Rlt_0_1) as (row & z & RW); try reflexivity; try lra.
  - repeat split; lia.
  - unfold tolerant, usual. cbn. lra.
  - cbn. lia.
  - exact A.
  - unfold uniform, uniform_stiffness. destruct rows_k0 as [K _]. rewrite K. pose proof PI2_1. lra.
  - intros i j Hi Hj. unfold t. cbn. destruct (Nat.eqb i 0); lra.
  - exists sb, young, ev, row, z. split; [exact Sb|]. split; [exact E|]. exact RW.
Qed.
