(** * Runs without contact and with full contact *)
From Coq Require Import Reals ZArith Lia Lra List Arith Bool String FunctionalExtensionality.
From Coquelicot Require Import Complex Coquelicot.
From Verif Require Import Py FFT_Base HalfSpace_Model HalfSpace_Spec HalfSpace_Proofs HalfSpace_Results
  HalfSpace_Results2 HalfSpace_Results3 HalfSpace_Witness Free_Model Free_Spec Free_Proofs Systems_Model Factory_Model
  Pipeline_Model Pipeline_Spec Pipeline_Results Pipeline_More Prop_Pipeline Contact_Model Contact_Spec Contact_Proofs Contact_Results.
From Verif Require CCG_Model CCG_Real CCG_Spec CCG_Proofs CCG_Results CCG_Results2 CCG_Returns.
From Coq Require Import List.
Import ListNotations.
Local Open Scope R_scope.

(** ** The solver as the pipeline needs it *)
Lemma solver_keeps : forall o, keeps_offset (ccg_solver o).
Proof.
  intros o sb sf hd sa r x H E F. destruct (solver_inv _ _ _ _ _ _ H) as (r' & C0 & ->). rewrite E, F in C0.
  cbn [result_object o_offset]. apply CCG_Proofs.offset_kept in C0; [|reflexivity]. exact C0.
Qed.
Lemma solver_grid : forall o, grid_force (ccg_solver o).
Proof.
  intros o name sizes sb sf hd sa r HS H. destruct (solver_inv _ _ _ _ _ _ H) as (r' & _ & ->).
  cbn [result_object o_jac a_shape]. apply (half_space_shapes _ _ _ _ HS).
Qed.
Lemma solver_returns : forall o sb sf hd sa, (List.length (sb_grid sb) = 1 \/ List.length (sb_grid sb) = 2)%nat ->
  (1 <= sa_maxiter sa)%nat -> hd = None \/ sa_force sa = None -> exists r', 
  ccg_solver o sb sf hd sa = Ret (result_object sb r').
Proof.
  intros o sb sf hd sa L M T. rewrite solver_eq by exact L. destruct (sa_maxiter sa) as [|n]; [lia|].
  destruct (CCG_Returns.ccg_returns (solver_cfg o sb sf hd (sa_force sa) match sa_offset sa with Some x => x | None => 0 end (sa_pentol sa)) n)
    as [r' E].
  - unfold CCG_Returns.tame, solver_cfg. cbn [CCG_Model.c_hard CCG_Model.c_ext]. destruct hd as [h|]; [|left; reflexivity].
    destruct T as [T|T]; [discriminate|]. right. split; [eexists; reflexivity|exact T].
  - rewrite E. eauto.
Qed.
Lemma solver_solves : forall o a, (1 <= cm_maxiter a)%nat -> is_plastic_run a = false \/ cm_pressures a = None ->
  solves a (ccg_solver o).
Proof.
  intros o a M T sb sf h sa n m HS G MI PL FO.
  destruct (half_space_shapes _ _ _ _ HS) as (SG & CS & SL & LX & LY & _).
  destruct (solver_returns o sb sf h sa) as [r' E].
  - right. rewrite SG. reflexivity.
  - lia.
  - destruct T as [T|T]; [left; exact (PL T)|]. right. destruct (sa_force sa); [|reflexivity]. exfalso. apply FO; [discriminate|exact T].
  - assert (X : exists n' m', sb_sub sb = [n'; m'] /\ (n <= n')%nat /\ (m <= m')%nat).
    { clear E r'. cbn in SL, LX, LY. destruct (sb_sub sb) as [|n' [|m' [|? ?]]]; try discriminate. exists n', m'. auto. }
    destruct X as (n' & m' & SB & X1 & X2). exists (result_object sb r'), n', m'. split; [exact E|].
    cbn [result_object o_jac o_x a_shape]. auto.
Qed.

(** ** The response to nothing *)
Lemma fft2_zero : forall n m k l, fft2 n m (fun _ _ => 0) k l = RtoC 0.
Proof.
  intros. transitivity (RtoC 0 * fft2 n m (fun _ _ => 0) k l)%C.
  - rewrite <- fft2_scal. apply fft2_ext. intros. ring.
  - ring.
Qed.
Lemma irfft2_zero : forall n m A x y, (0 < n)%nat -> (0 < m)%nat -> (x < n)%nat -> (y < m)%nat ->
  (forall k l, A k l = RtoC 0) -> irfft2 n m A x y = 0.
Proof.
  intros n m A x y N M X Y E. rewrite (irfft2_ext n m A (fft2 n m (fun _ _ => 0)) x y).
  - rewrite irfft2_fft2 by assumption. ring.
  - intros. rewrite E, fft2_zero. reflexivity.
Qed.
Lemma write_zero : forall g, write g 0 (fun _ : pt g => 0) = (fun _ _ => 0).
Proof. intros. funext. funext. unfold write. destruct (bool_dec _ _); reflexivity. Qed.

Lemma zero_response : forall name g sizes sb, make_half_space name g sizes = Ret sb ->
  (forall p, respond (sb_sub sb) (sb_disp sb) (fun _ => 0) p = 0)
  /\ (forall p, respond (sb_sub sb) (sb_force sb) (fun _ => 0) p = 0).
Proof.
  intros name g sizes sb H. destruct (half_space_cases _ _ _ _ H) as [(_ & s & C0 & ->)|(_ & s & C0 & ->)].
  - pose proof (disp_multiplier _ s C0) as M1. pose proof (force_multiplier _ s C0) as M2.
    cbn [periodic sb_sub sb_disp sb_force]. rewrite (hs_grid _ _ C0) in *. cbn [a_grid periodic_args] in *.
    split; intros p; [apply (respond_zero _ _ _ _ M1)|apply (respond_zero _ _ _ _ M2)].
  - destruct (half_space_shapes _ _ _ _ H) as (_ & _ & _ & LX & LY & PX & PY).
    cbn [free sb_sub sb_disp sb_force] in *.
    assert (P1 : (0 < domx s)%nat) by (unfold domx, gx in *; lia). assert (P2 : (0 < domy s)%nat) by (unfold domy, gy in *; lia).
    assert (PI : forall p : pt (f_dom s), (px p < domx s)%nat /\ (py p < domy s)%nat) by (intros p; exact (pt_inside _ p)).
    assert (FZ : forall k l, (fft2 (domx s) (domy s) (fun _ _ => 0) k l = RtoC 0)%C) by (intros; apply fft2_zero).
    split; intros p; unfold respond; rewrite write_zero; destruct (PI p) as [X Y].
    + unfold free_disp. cbn [a_shape]. rewrite shape_eqb_refl. unfold base_disp. cbn [a_shape]. rewrite shape_eqb_refl. cbn [negb].
      unfold read. cbn [a_val]. rewrite irfft2_zero; try assumption; [unfold Rdiv; ring|].
      intros k l. replace (fun _ _ : nat => - 0) with (fun _ _ : nat => 0) by (funext; funext; lra). rewrite FZ. ring.
    + unfold base_force. cbn [a_shape]. rewrite shape_eqb_refl. cbn [negb]. unfold read. cbn [a_val].
      rewrite irfft2_zero; try assumption; [ring|]. intros k l. rewrite FZ. ring.
Qed.

(** ** No contact *)
Definition tolerant (o : options) (pentol : R) : Prop := 0 < pentol /\ 0 < op_forcetol o /\ 0 < op_thermotol o.

Lemma solver_no_contact : forall o name g sizes sb sf sa x, make_half_space name g sizes = Ret sb -> sf_grid sf = g ->
  tolerant o (sa_pentol sa) -> sa_offset sa = Some x -> sa_force sa = None -> (1 <= sa_maxiter sa)%nat ->
  (forall i j, on_grid g i j -> a_val (heights sf) i j + x <= 0) ->
  exists r, ccg_solver o sb sf None sa = Ret r /\ o_success r = true /\ o_offset r = x
    /\ (forall i j, a_val (o_jac r) i j = 0) /\ (forall i j, a_val (o_x r) i j = 0).
Proof.
  intros o name g sizes sb sf sa x HS G T O F M C0. destruct (half_space_shapes _ _ _ _ HS) as (SG & CS & _).
  assert (L : (List.length (sb_grid sb) = 1 \/ List.length (sb_grid sb) = 2)%nat) by (rewrite SG; apply (half_space_inv _ _ _ _ HS)).
  destruct (zero_response _ _ _ _ HS) as [Z1 Z2]. destruct (sa_maxiter sa) as [|n] eqn:MI; [lia|].
  destruct (CCG_Results2.no_contact (solver_cfg o sb sf None (sa_force sa) x (sa_pentol sa)) n) as (r & E & S1 & _ & J & X);
    try reflexivity; try assumption.
  - apply cfg_covers.
  - intros p SP. rewrite cfg_surface, CS in SP. apply inside_true in SP. apply C0. exact SP.
  - exists (result_object sb r). rewrite solver_eq by exact L. rewrite O, MI, E. split; [reflexivity|].
    cbn [result_object o_success o_offset o_jac o_x a_val]. split; [exact S1|]. split.
    + apply CCG_Proofs.offset_kept in E; [exact E|exact F].
    + split; intros i j; unfold write; destruct (bool_dec _ _); auto.
Qed.

(** ** Full contact *)
Lemma response_gf : forall g sizes s p u, construct (periodic_args g sizes) = Ret s -> positive_sizes sizes ->
  List.length g = 2%nat -> periodic_response g (cell_size sizes 0) (cell_size sizes 1) p u ->
  forall k l, on_grid g k l -> fft2 (gx g) (gy g) u k l = (RtoC (s_gf s k l) * fft2 (gx g) (gy g) p k l)%C.
Proof.
  intros g sizes s p u H P L2 [W0 M0] k l G. destruct (Nat.eq_dec k 0) as [->|Z]; [destruct (Nat.eq_dec l 0) as [->|Z]|].
  - rewrite !fft2_00, (periodic_mean g sizes s H P L2), <- RtoC_mult. f_equal.
    destruct (disp_multiplier _ s H) as (P1 & P2 & _). cbn [a_grid periodic_args] in *.
    unfold mean, HalfSpace_Spec.total in M0.
    pose proof (lt_0_INR _ P1) as I1. pose proof (lt_0_INR _ P2) as I2.
    assert (IP : 0 < INR (gx g) * INR (gy g)) by (apply Rmult_lt_0_compat; assumption).
    unfold Rdiv in M0. rewrite <- Rmult_assoc in M0. apply Rmult_eq_reg_r in M0; [exact M0|]. apply Rinv_neq_0_compat. lra.
  - rewrite (W0 0%nat l G) by lia. rewrite (periodic_wave g sizes s 0 l H P G) by lia. reflexivity.
  - rewrite (W0 k l G) by lia. rewrite (periodic_wave g sizes s k l H P G) by lia. reflexivity.
Qed.

Lemma response_force : forall g sizes s p u, construct (periodic_args g sizes) = Ret s -> positive_sizes sizes ->
  List.length g = 2%nat -> periodic_response g (cell_size sizes 0) (cell_size sizes 1) p u ->
  respond g (evaluate_force s) (read g u) = (fun q => - (area_per_pt (s_hs s) * p (px q) (py q)))
  /\ respond g (evaluate_disp s) (fun q => - (area_per_pt (s_hs s) * p (px q) (py q))) = read g u.
Proof.
  intros g sizes s p u H P L2 PR. pose proof (response_gf g sizes s p u H P L2 PR) as E.
  pose proof (periodic_area g sizes s H P) as PA.
  pose proof (disp_multiplier _ s H) as M1. pose proof (force_multiplier _ s H) as M2. cbn [a_grid periodic_args] in *.
  destruct M1 as (P1 & P2 & M1'). pose proof (conj P1 (conj P2 M1') : multiplier g (evaluate_disp s) _ _) as M1.
  assert (Inj : forall v w : pt g -> R, (forall k l, on_grid g k l -> fft2 (gx g) (gy g) (write g 0 v) k l = fft2 (gx g) (gy g) (write g 0 w) k l) -> v = w).
  { intros v w EQ. funext. rewrite <- (write_at _ g 0 v), <- (write_at _ g 0 w). apply (fft2_inj (gx g) (gy g) P1 P2).
    - intros k l Hk Hl. apply EQ. split; assumption.
    - apply (pt_inside g x).
    - apply (pt_inside g x). }
  assert (FW : forall (v : pt g -> R) f, (forall q, v q = f (px q) (py q)) -> forall k l, fft2 (gx g) (gy g) (write g 0 v) k l = fft2 (gx g) (gy g) f k l).
  { intros v f EQ k l. apply fft2_ext. intros x y Hx Hy. rewrite (write_in _ _ _ _ _ _ (conj Hx Hy)). apply EQ. }
  assert (FP : forall k l, fft2 (gx g) (gy g) (write g 0 (fun q : pt g => - (area_per_pt (s_hs s) * p (px q) (py q)))) k l
     = (RtoC (- area_per_pt (s_hs s)) * fft2 (gx g) (gy g) p k l)%C).
  { intros k l. rewrite <- fft2_scal. apply FW. intros q. ring. }
  split; apply Inj; intros k l G; destruct (gf_ss g sizes s k l H P G) as [SP GS].
  - rewrite (respond_fft g _ _ _ M2 _ k l G), FP. rewrite (FW _ u) by reflexivity. rewrite (E k l G). unfold SS.
    rewrite !Cmult_assoc, <- !RtoC_mult. f_equal. f_equal. rewrite GS. field. lra.
  - rewrite (respond_fft g _ _ _ M1 _ k l G), FP. rewrite (FW _ u) by reflexivity. rewrite (E k l G). unfold GF.
    rewrite !Cmult_assoc, <- !RtoC_mult. f_equal. f_equal. field. lra.
Qed.

Lemma start_exact : forall o g sizes s sf x pentol p u, construct (periodic_args g sizes) = Ret s -> positive_sizes sizes ->
  List.length g = 2%nat ->
  periodic_response g (cell_size sizes 0) (cell_size sizes 1) p u ->
  (forall i j, on_grid g i j -> u i j = Rmax 0 (a_val (heights sf) i j + x) /\ 0 <= p i j /\ p i j * (u i j - a_val (heights sf) i j - x) = 0) ->
  let c := solver_cfg o (periodic s) sf None None x pentol in
  let q := fun z : pt (sb_sub (periodic s)) => area_per_pt (s_hs s) * p (px z) (py z) in
  CCG_Spec.exact_solution c x q
  /\ CCG_Model.s_f (CCG_Model.init_state (CCG_Real.ROps _) c) = (fun z => - q z)
  /\ CCG_Model.s_u (CCG_Model.init_state (CCG_Real.ROps _) c) = CCG_Model.c_disp c (fun z => - q z)
  /\ CCG_Model.c_disp c (fun z => - q z) = read _ u.
Proof.
  intros o g sizes s sf x pentol p u H P L2 PR C0 c q.
  assert (HS : make_half_space "periodic" g sizes = Ret (periodic s)).
  { unfold make_half_space. cbn [String.eqb Ascii.eqb Bool.eqb]. unfold call_periodic, half_space_kwargs. cbn.
    fold (periodic_args g sizes). rewrite H. reflexivity. }
  destruct (half_space_shapes _ _ _ _ HS) as (SG & CS & _).
  pose proof (periodic_area g sizes s H P) as PA.
  destruct (response_force g sizes s p _ H P L2 PR) as [R1 R2].
  assert (SB : sb_sub (periodic s) = g) by exact (hs_grid _ _ H).
  assert (RR1 : respond (sb_sub (periodic s)) (evaluate_force s) (read _ u) = (fun z => - q z)).
  { unfold q. rewrite SB. exact R1. }
  assert (RR2 : respond (sb_sub (periodic s)) (evaluate_disp s) (fun z => - q z) = read _ u).
  { unfold q. rewrite SB. exact R2. }
  assert (IN : forall z : pt (sb_sub (periodic s)), on_grid g (px z) (py z)).
  { intros z. pose proof (pt_inside _ z) as K. unfold on_grid. rewrite <- SB. exact K. }
  assert (CP : forall z, CCG_Model.comp c z = true).
  { intros z. unfold CCG_Model.comp, c, solver_cfg. cbn [CCG_Model.c_slice CCG_Model.c_masked]. rewrite CS.
    rewrite (proj2 (inside_true g _ _) (IN z)). reflexivity. }
  assert (I2 : (fun z : pt (sb_sub (periodic s)) => if CCG_Model.comp c z then
      (if CCG_Real.Rltb 0 (CCG_Model.c_h c z + CCG_Model.c_offset c) then CCG_Model.c_h c z + CCG_Model.c_offset c else 0) else 0)
      = read _ u).
  { funext. rename x0 into z. rewrite CP. unfold c, solver_cfg. cbn [CCG_Model.c_h CCG_Model.c_offset]. unfold read.
    destruct (C0 _ _ (IN z)) as [-> _].
    destruct (CCG_Real.Rltb 0 (a_val (heights sf) (px z) (py z) + x)) eqn:B.
    - apply CCG_Real.Rltb_true in B. rewrite Rmax_right by lra. reflexivity.
    - assert (Q : ~ 0 < a_val (heights sf) (px z) (py z) + x) by (intros Q; apply CCG_Real.Rltb_true in Q; congruence).
      rewrite Rmax_left by lra. reflexivity. }
  split; [|split; [|split; [|exact RR2]]].
  - unfold CCG_Spec.exact_solution. cbv zeta. split.
    + intros z _ NS. exfalso. apply NS. apply cfg_surface. rewrite CS. apply inside_true. exact (IN z).
    + intros z _ _. change (CCG_Model.c_disp c) with (respond (sb_sub (periodic s)) (evaluate_disp s)).
      rewrite RR2. unfold c, solver_cfg, read, q. cbn [CCG_Model.c_h CCG_Model.c_offset]. unfold read.
      destruct (C0 _ _ (IN z)) as (QU & Q & QZ). split; [apply Rmult_le_pos; lra|]. split.
      * rewrite QU. pose proof (Rmax_r 0 (a_val (heights sf) (px z) (py z) + x)). lra.
      * rewrite Rmult_assoc, QZ. ring.
  - unfold CCG_Model.init_state. cbn [CCG_Model.s_f CCG_Real.ROps CCG_Model.mat].
    cbn [CCG_Model.oltb CCG_Model.oadd CCG_Model.o0 CCG_Real.ROps].
    change (CCG_Model.c_f0 c) with (@None (pt (sb_sub (periodic s)) -> R)).
    change (CCG_Model.c_u0 c) with (@None (pt (sb_sub (periodic s)) -> R)). cbv iota beta.
    rewrite I2. change (CCG_Model.c_force c) with (respond (sb_sub (periodic s)) (evaluate_force s)). rewrite RR1.
    funext. unfold CCG_Model.pad. rewrite CP. reflexivity.
  - change (CCG_Model.c_disp c) with (respond (sb_sub (periodic s)) (evaluate_disp s)). rewrite RR2.
    unfold CCG_Model.init_state. cbn [CCG_Model.s_u CCG_Real.ROps CCG_Model.mat].
    cbn [CCG_Model.oltb CCG_Model.oadd CCG_Model.o0 CCG_Real.ROps].
    change (CCG_Model.c_f0 c) with (@None (pt (sb_sub (periodic s)) -> R)).
    change (CCG_Model.c_u0 c) with (@None (pt (sb_sub (periodic s)) -> R)). cbv iota beta. exact I2.
Qed.
Lemma solver_start : forall o g sizes s sf sa x p u, construct (periodic_args g sizes) = Ret s -> positive_sizes sizes ->
  List.length g = 2%nat -> sf_grid sf = g ->
  tolerant o (sa_pentol sa) -> sa_offset sa = Some x -> sa_force sa = None -> (1 <= sa_maxiter sa)%nat ->
  periodic_response g (cell_size sizes 0) (cell_size sizes 1) p u ->
  (forall i j, on_grid g i j -> u i j = Rmax 0 (a_val (heights sf) i j + x) /\ 0 <= p i j /\ p i j * (u i j - a_val (heights sf) i j - x) = 0) ->
  exists r, CCG_Spec.ccg (solver_cfg o (periodic s) sf None (sa_force sa) x (sa_pentol sa)) (sa_maxiter sa) = CCG_Model.Ok r
    /\ CCG_Model.x_str r = CCG_Model.Cg /\ CCG_Model.x_nit r = 1%nat
    /\ ccg_solver o (periodic s) sf None sa = Ret (result_object (periodic s) r) /\ CCG_Model.x_success r = true
    /\ CCG_Model.x_offset r = x
    /\ (forall i j, on_grid g i j -> a_val (o_jac (result_object (periodic s) r)) i j = p i j * area_per_pt (s_hs s)
                                  /\ a_val (o_x (result_object (periodic s) r)) i j = u i j).
Proof.
  intros o g sizes s sf sa x p u H P L2 G T O F M PR C0.
  assert (HS : make_half_space "periodic" g sizes = Ret (periodic s)).
  { unfold make_half_space. cbn [String.eqb Ascii.eqb Bool.eqb]. unfold call_periodic, half_space_kwargs. cbn.
    fold (periodic_args g sizes). rewrite H. reflexivity. }
  destruct (half_space_shapes _ _ _ _ HS) as (SG & _).
  assert (L : (List.length (sb_grid (periodic s)) = 1 \/ List.length (sb_grid (periodic s)) = 2)%nat) by (rewrite SG; right; exact L2).
  pose proof (periodic_area g sizes s H P) as PA.
  assert (SB : sb_sub (periodic s) = g) by exact (hs_grid _ _ H).
  destruct (sa_maxiter sa) as [|n] eqn:MI; [lia|].
  rewrite F. destruct (start_exact o g sizes s sf x (sa_pentol sa) p u H P L2 PR C0) as (EX & I1 & I2 & RR2).
  set (c := solver_cfg o (periodic s) sf None None x (sa_pentol sa)) in *.
  set (q := fun z : pt (sb_sub (periodic s)) => area_per_pt (s_hs s) * p (px z) (py z)) in *.
  change (CCG_Model.c_disp c (fun z => - q z) = read _ u) in RR2.
  destruct (CCG_Returns.exact_start c q n (cfg_covers _ _ _ _ _ _ _) eq_refl T eq_refl EX I1 I2) as (r & E & S1 & NI & J & X & OF & ST).
  exists r. split; [exact E|]. split; [exact ST|]. split; [exact NI|].
    split; [rewrite solver_eq by exact L; rewrite O, MI, F; fold c; rewrite E; reflexivity|].
    split; [exact S1|]. split; [exact OF|]. cbn [result_object o_jac o_x a_val]. intros i j GI.
    assert (GI' : (i < gx (sb_sub (periodic s)))%nat /\ (j < gy (sb_sub (periodic s)))%nat) by (rewrite SB; exact GI).
    rewrite !(write_in _ _ _ _ _ _ GI'), J, X. rewrite RR2.
    unfold q, read, px, py. cbn [proj1_sig at_pt fst snd]. split; [ring|reflexivity].
Qed.
Lemma solver_full_contact : forall o g sizes s sf sa x p, construct (periodic_args g sizes) = Ret s -> positive_sizes sizes ->
  List.length g = 2%nat -> sf_grid sf = g ->
  tolerant o (sa_pentol sa) -> sa_offset sa = Some x -> sa_force sa = None -> (1 <= sa_maxiter sa)%nat ->
  periodic_response g (cell_size sizes 0) (cell_size sizes 1) p (fun i j => a_val (heights sf) i j + x) ->
  (forall i j, on_grid g i j -> 0 <= a_val (heights sf) i j + x /\ 0 <= p i j) ->
  exists r, ccg_solver o (periodic s) sf None sa = Ret r /\ o_success r = true /\ o_offset r = x
    /\ (forall i j, on_grid g i j -> a_val (o_jac r) i j = p i j * area_per_pt (s_hs s)
                                  /\ a_val (o_x r) i j = a_val (heights sf) i j + x).
Proof.
  intros o g sizes s sf sa x p H P L2 G T O F M PR C0.
  destruct (solver_start o g sizes s sf sa x p _ H P L2 G T O F M PR) as (r & _ & _ & _ & E & S1 & OF & V).
  - intros i j GI. destruct (C0 i j GI) as [Q1 Q2]. rewrite Rmax_right by exact Q1. split; [reflexivity|]. split; [exact Q2|]. ring.
  - exists (result_object (periodic s) r). auto.
Qed.
