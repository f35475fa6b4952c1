(** * Given pressure on a periodic half-space: flat surfaces and light loads *)
From Coq Require Import Reals ZArith Lia Lra List Arith Bool String FunctionalExtensionality.
From Coquelicot Require Import Complex Coquelicot.
From Verif Require Import Py FFT_Base HalfSpace_Model HalfSpace_Spec HalfSpace_Proofs HalfSpace_Results
  HalfSpace_Results2 HalfSpace_Results3 Free_Model Free_Spec Free_Proofs Systems_Model Systems_Spec Systems_Proofs Factory_Model
  Pipeline_Model Pipeline_Spec Pipeline_Results Pipeline_More Prop_Pipeline Contact_Model Contact_Spec Contact_Proofs Contact_Results
  Contact_Results2 Contact_Results3.
From Verif Require CCG_Model CCG_Real CCG_Spec CCG_Proofs CCG_Results CCG_Results2 CCG_Load.
From Coq Require Import List.
Import ListNotations.
Local Open Scope R_scope.

(** Stiffness of the uniform displacement. *)
Definition uniform_stiffness (g : list nat) (lx ly : R) : R :=
  (wavenumber g lx ly 1 0 + wavenumber g lx ly 0 1) / 4.

Lemma uniform_response : forall g lx ly c, (0 < gx g)%nat -> (0 < gy g)%nat -> 0 < uniform_stiffness g lx ly ->
  periodic_response g lx ly (fun _ _ => uniform_stiffness g lx ly * c) (fun _ _ => c).
Proof.
  intros g lx ly c X Y K. unfold uniform_stiffness in *.
  assert (F : forall v k l, on_grid g k l -> ~ (k = 0 /\ l = 0)%nat -> fft2 (gx g) (gy g) (fun _ _ => v) k l = RtoC 0).
  { intros v k l [G1 G2] Z. transitivity (RtoC v * fft2 (gx g) (gy g) (fun _ _ => 1) k l)%C.
    - rewrite <- fft2_scal. apply fft2_ext. intros. ring.
    - rewrite (fft2_one _ _ X Y k l G1 G2). unfold is_00. destruct (Nat.eqb_spec k 0), (Nat.eqb_spec l 0); try (exfalso; auto; fail); cbn [andb]; ring. }
  assert (M : forall v, mean g (fun _ _ => v) = v).
  { intros v. unfold mean, HalfSpace_Spec.total. rewrite Rsum2_const. pose proof (lt_0_INR _ X). pose proof (lt_0_INR _ Y). field. lra. }
  split.
  - intros k l G Z. rewrite !F by assumption. ring.
  - rewrite !M. field. lra.
Qed.

Section Periodic.
  Variables (o : options) (g : list nat) (sizes : list R) (s : sub) (sf : surface).
  Hypothesis CH : construct (periodic_args g sizes) = Ret s.
  Hypothesis PS : positive_sizes sizes.
  Hypothesis L2 : List.length g = 2%nat.
  Hypothesis G : sf_grid sf = g.
  Hypothesis KP : 0 < uniform_stiffness g (cell_size sizes 0) (cell_size sizes 1).
  Let k0 := uniform_stiffness g (cell_size sizes 0) (cell_size sizes 1).
  Let area := area_per_pt (s_hs s).

  Lemma area_positive : 0 < area.
  Proof. exact (periodic_area g sizes s CH PS). Qed.
  Lemma sub_grid : sb_sub (periodic s) = g.
  Proof. exact (hs_grid _ _ CH). Qed.
  Lemma grid_pos : (0 < gx g)%nat /\ (0 < gy g)%nat.
  Proof. destruct (disp_multiplier _ s CH) as (P1 & P2 & _). split; assumption. Qed.
  Lemma half_space : make_half_space "periodic" g sizes = Ret (periodic s).
  Proof.
    unfold make_half_space. cbn [String.eqb Ascii.eqb Bool.eqb]. unfold call_periodic, half_space_kwargs. cbn.
    fold (periodic_args g sizes). rewrite CH. reflexivity.
  Qed.
  Lemma in_grid : forall z : pt (sb_sub (periodic s)), on_grid g (px z) (py z).
  Proof. intros z. pose proof (pt_inside _ z) as K. unfold on_grid. rewrite <- sub_grid. exact K. Qed.

  (** Uniform forces and uniform displacements. *)
  Lemma respond_uniform : forall v,
    respond (sb_sub (periodic s)) (evaluate_disp s) (fun _ => v) = (fun _ => - / (area * k0) * v)
    /\ respond (sb_sub (periodic s)) (evaluate_force s) (fun _ => v) = (fun _ => - v / / (area * k0)).
  Proof.
    pose proof area_positive as AP. destruct grid_pos as [X Y].
    assert (E : forall c, respond (sb_sub (periodic s)) (evaluate_force s) (fun _ => c) = (fun _ => - (area * (k0 * c)))
       /\ respond (sb_sub (periodic s)) (evaluate_disp s) (fun _ => - (area * (k0 * c))) = (fun _ => c)).
    { intros c. rewrite sub_grid. apply (response_force g sizes s (fun _ _ => k0 * c) (fun _ _ => c) CH PS L2).
      apply uniform_response; assumption. }
    intros v. split.
    - destruct (E (- / (area * k0) * v)) as [_ E2].
      replace (- (area * (k0 * (- / (area * k0) * v)))) with v in E2; [exact E2|]. field. unfold k0. split; lra.
    - destruct (E v) as [E1 _]. rewrite E1. funext. field. unfold k0. split; lra.
  Qed.

  Variables (force off pentol : R).
  Let c := solver_cfg o (periodic s) sf None (Some force) off pentol.

  Lemma whole : forall z, CCG_Model.comp c z = true.
  Proof.
    intros z. destruct (half_space_shapes _ _ _ _ half_space) as (_ & CS & _).
    unfold CCG_Model.comp, c, solver_cfg. cbn [CCG_Model.c_slice CCG_Model.c_masked]. rewrite CS.
    rewrite (proj2 (inside_true g _ _) (in_grid z)). reflexivity.
  Qed.
  Lemma count_points : List.length (filter (CCG_Model.comp c) (CCG_Spec.grid c)) = CCG_Model.c_nsurf c.
  Proof.
    apply INR_eq. transitivity (CCG_Real.lsum (filter (CCG_Model.comp c) (CCG_Spec.grid c)) (fun _ => 1)).
    - rewrite CCG_Results2.lsum_filter_const. ring.
    - unfold c at 2. rewrite cfg_grid, lsum_filter_if.
      transitivity (CCG_Real.lsum (points (sb_sub (periodic s))) (fun _ => 1)).
      { f_equal. funext. rewrite whole. reflexivity. }
      rewrite sum_points.
      transitivity (Rsum2 (gx (sb_sub (periodic s))) (gy (sb_sub (periodic s))) (fun _ _ => 1)).
      { apply Rsum2_ext. intros x y Hx Hy. rewrite (write_in _ _ _ _ _ _ (conj Hx Hy)). reflexivity. }
      rewrite Rsum2_const. change (CCG_Model.c_nsurf c) with (size (sf_grid sf)). rewrite sub_grid, G.
      clear - L2. destruct g as [|n [|m [|? ?]]]; try discriminate. unfold size. cbn [fold_right gx gy nth]. rewrite !mult_INR. cbn [INR]. ring.
  Qed.
  Lemma count_pos : (0 < CCG_Model.c_nsurf c)%nat.
  Proof.
    unfold c, solver_cfg. cbn [CCG_Model.c_nsurf]. rewrite G. destruct grid_pos as [X Y]. clear - L2 X Y.
    destruct g as [|n [|m [|? ?]]]; try discriminate. cbn in *. nia.
  Qed.
End Periodic.

(** Converged at uniform pressure after one iteration, wherever the surface
    is. *)
Lemma solver_light_load : forall o g sizes s sf sa p, construct (periodic_args g sizes) = Ret s -> positive_sizes sizes ->
  List.length g = 2%nat -> sf_grid sf = g -> 0 < uniform_stiffness g (cell_size sizes 0) (cell_size sizes 1) ->
  tolerant o (sa_pentol sa) -> sa_offset sa = None -> sa_force sa = Some (p * (area_per_pt (s_hs s) * INR (size g))) -> (1 <= sa_maxiter sa)%nat ->
  (forall i j, on_grid g i j -> a_val (heights sf) i j <= 0) -> 0 < p ->
  p < uniform_stiffness g (cell_size sizes 0) (cell_size sizes 1) * sa_pentol sa ->
  exists r, ccg_solver o (periodic s) sf None sa = Ret r /\ o_success r = true /\ o_offset r = 0
    /\ (forall i j, on_grid g i j -> a_val (o_jac r) i j = p * area_per_pt (s_hs s)
         /\ a_val (o_x r) i j = p / uniform_stiffness g (cell_size sizes 0) (cell_size sizes 1)).
Proof.
  intros o g sizes s sf sa p CH PS L2 G KP T O F M HB PP LL.
  pose proof (half_space g sizes s CH) as HS. destruct (half_space_shapes _ _ _ _ HS) as (SG & CS & _).
  assert (L : (List.length (sb_grid (periodic s)) = 1 \/ List.length (sb_grid (periodic s)) = 2)%nat) by (rewrite SG; right; exact L2).
  pose proof (area_positive g sizes s CH PS) as AP. pose proof (sub_grid g sizes s CH) as SB.
  destruct (sa_maxiter sa) as [|n] eqn:MI; [lia|].
  set (force := p * (area_per_pt (s_hs s) * INR (size g))) in *.
  pose proof (count_pos o g sizes s sf CH L2 G force 0 (sa_pentol sa)) as CPos.
  pose proof (count_points o g sizes s sf CH L2 G force 0 (sa_pentol sa)) as CPts.
  pose proof (whole o g sizes s sf CH force 0 (sa_pentol sa)) as WH.
  set (c := solver_cfg o (periodic s) sf None (Some force) 0 (sa_pentol sa)) in *.
  assert (SZ : 0 < INR (size g)) by (apply lt_0_INR; unfold c, solver_cfg in CPos; cbn [CCG_Model.c_nsurf] in CPos; rewrite G in CPos; exact CPos).
  assert (F0 : force <> 0) by (unfold force; apply Rgt_not_eq; apply Rmult_lt_0_compat; [|apply Rmult_lt_0_compat]; assumption).
  assert (SPR : CCG_Load.spread c force = (fun _ => - (p * area_per_pt (s_hs s)))).
  { funext. unfold CCG_Load.spread. rewrite WH. unfold c, solver_cfg. cbn [CCG_Model.c_nsurf]. rewrite G. unfold force. field. lra. }
  assert (DSP : CCG_Model.c_disp c (CCG_Load.spread c force) = (fun _ => p / uniform_stiffness g (cell_size sizes 0) (cell_size sizes 1))).
  { rewrite SPR. change (CCG_Model.c_disp c) with (respond (sb_sub (periodic s)) (evaluate_disp s)).
    rewrite (proj1 (respond_uniform g sizes s CH PS L2 KP _)). funext. field. split; lra. }
  destruct (zero_response _ _ _ _ HS) as [Z1 Z2].
  destruct (CCG_Load.light_load c eq_refl T force eq_refl CPos CPts n F0 eq_refl eq_refl eq_refl Z2 Z1) as (r & E & S1 & _ & J & X & OF).
  - intros z _. apply HB. exact (in_grid g sizes s CH z).
  - intros z _. rewrite DSP. rewrite Rabs_pos_eq.
    + apply (Rmult_lt_reg_r (uniform_stiffness g (cell_size sizes 0) (cell_size sizes 1))); [exact KP|].
      unfold c, solver_cfg. cbn [CCG_Model.c_pentol]. replace (p / uniform_stiffness g (cell_size sizes 0) (cell_size sizes 1) * uniform_stiffness g (cell_size sizes 0) (cell_size sizes 1)) with p by (field; lra).
      lra.
    + apply Rlt_le, Rdiv_lt_0_compat; assumption.
  - exists (result_object (periodic s) r). rewrite solver_eq by exact L. rewrite O, MI, F. fold c. rewrite E. split; [reflexivity|].
    cbn [result_object o_success o_offset o_jac o_x a_val]. split; [exact S1|]. split; [exact OF|]. intros i j GI.
    assert (GI' : (i < gx (sb_sub (periodic s)))%nat /\ (j < gy (sb_sub (periodic s)))%nat) by (rewrite SB; exact GI).
    rewrite !(write_in _ _ _ _ _ _ GI'), J, X, DSP, SPR. split; ring.
Qed.

(** A flat surface at a pressure that moves it by more than the tolerance. *)
Lemma solver_flat : forall o g sizes s sf sa p h0, construct (periodic_args g sizes) = Ret s -> positive_sizes sizes ->
  List.length g = 2%nat -> sf_grid sf = g -> 0 < uniform_stiffness g (cell_size sizes 0) (cell_size sizes 1) ->
  tolerant o (sa_pentol sa) -> sa_offset sa = None -> sa_force sa = Some (p * (area_per_pt (s_hs s) * INR (size g))) -> (3 <= sa_maxiter sa)%nat ->
  (forall i j, on_grid g i j -> a_val (heights sf) i j = h0) -> 0 < p ->
  sa_pentol sa <= Rabs (p / uniform_stiffness g (cell_size sizes 0) (cell_size sizes 1) - Rmax 0 h0) ->
  exists r, ccg_solver o (periodic s) sf None sa = Ret r /\ o_success r = true
    /\ o_offset r = p / uniform_stiffness g (cell_size sizes 0) (cell_size sizes 1) - h0
    /\ (forall i j, on_grid g i j -> a_val (o_jac r) i j = p * area_per_pt (s_hs s)
         /\ a_val (o_x r) i j = p / uniform_stiffness g (cell_size sizes 0) (cell_size sizes 1)).
Proof.
  intros o g sizes s sf sa p h0 CH PS L2 G KP T O F M HB PP LL.
  pose proof (half_space g sizes s CH) as HS. destruct (half_space_shapes _ _ _ _ HS) as (SG & CS & _).
  assert (L : (List.length (sb_grid (periodic s)) = 1 \/ List.length (sb_grid (periodic s)) = 2)%nat) by (rewrite SG; right; exact L2).
  pose proof (area_positive g sizes s CH PS) as AP. pose proof (sub_grid g sizes s CH) as SB.
  destruct (sa_maxiter sa) as [|[|[|n]]] eqn:MI; try lia.
  set (force := p * (area_per_pt (s_hs s) * INR (size g))) in *.
  pose proof (count_pos o g sizes s sf CH L2 G force 0 (sa_pentol sa)) as CPos.
  pose proof (count_points o g sizes s sf CH L2 G force 0 (sa_pentol sa)) as CPts.
  pose proof (whole o g sizes s sf CH force 0 (sa_pentol sa)) as WH.
  set (c := solver_cfg o (periodic s) sf None (Some force) 0 (sa_pentol sa)) in *.
  assert (SZ : 0 < INR (size g)) by (apply lt_0_INR; unfold c, solver_cfg in CPos; cbn [CCG_Model.c_nsurf] in CPos; rewrite G in CPos; exact CPos).
  assert (F0 : 0 < force) by (unfold force; apply Rmult_lt_0_compat; [|apply Rmult_lt_0_compat]; assumption).
  set (k0 := uniform_stiffness g (cell_size sizes 0) (cell_size sizes 1)) in *.
  assert (KA : 0 < area_per_pt (s_hs s) * k0) by (apply Rmult_lt_0_compat; assumption).
  assert (NS : INR (CCG_Model.c_nsurf c) = INR (size g)) by (unfold c, solver_cfg; cbn [CCG_Model.c_nsurf]; rewrite G; reflexivity).
  assert (PU : CCG_Load.pushed c force (/ (area_per_pt (s_hs s) * k0)) = p / k0).
  { unfold CCG_Load.pushed. rewrite NS. unfold force. field. repeat split; lra. }
  destruct (CCG_Load.flat_load c eq_refl T force eq_refl CPos CPts n h0 (/ (area_per_pt (s_hs s) * k0)) WH) as (r & E & S1 & J & X & OF).
  - intros z. apply HB. exact (in_grid g sizes s CH z).
  - apply Rinv_0_lt_compat. exact KA.
  - intros v. apply (respond_uniform g sizes s CH PS L2 KP v).
  - intros v. apply (respond_uniform g sizes s CH PS L2 KP v).
  - exact F0.
  - reflexivity.
  - reflexivity.
  - reflexivity.
  - rewrite PU. exact LL.
  - exists (result_object (periodic s) r). rewrite solver_eq by exact L. rewrite O, MI, F. fold c. rewrite E. split; [reflexivity|].
    cbn [result_object o_success o_offset o_jac o_x a_val]. split; [exact S1|]. rewrite PU in *. split; [exact OF|]. intros i j GI.
    assert (GI' : (i < gx (sb_sub (periodic s)))%nat /\ (j < gy (sb_sub (periodic s)))%nat) by (rewrite SB; exact GI).
    rewrite !(write_in _ _ _ _ _ _ GI'), J, X, NS. split; [|reflexivity]. unfold force. field. lra.
Qed.
