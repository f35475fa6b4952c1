(** * C78 The contact problem has exactly one solution, and how far computed states are from it *)
From Coq Require Import Reals Lia Lra List Arith Bool String.
From Coquelicot Require Import Complex.
From Verif Require Import Py FFT_Base HalfSpace_Spec HalfSpace_Model HalfSpace_Results Systems_Model Systems_Spec Systems_Proofs Pipeline_Model Pipeline_Spec Pipeline_More
  Contact_Spec Contact_Model Contact_Proofs Contact_Results Contact_Results2 Contact_Results3 Contact_Load Prop_Pipeline Prop_Contact
  Signorini_Spec Signorini_Base Signorini_Periodic.
From Verif Require CCG_Model CCG_Real CCG_Spec CCG_Results2 Prop_Solver.
From Coq Require Import List.
Import ListNotations.
Local Open Scope R_scope.

(** ** The problem *)
Theorem C78_one_state : forall n m lx ly h delta, (2 <= n)%nat -> (2 <= m)%nat -> 0 < lx -> 0 < ly ->
  exists p u, in_contact [n; m] lx ly h delta p u
  /\ forall p' u', in_contact [n; m] lx ly h delta p' u' ->
     forall x y, (x < n)%nat -> (y < m)%nat -> p' x y = p x y /\ u' x y = u x y.
Proof.
  intros n m lx ly h delta N M X Y. destruct (contact_exists n m lx ly N M X Y h) as [p C]. exists (p delta), (Comp n m lx ly (p delta)).
  split; [apply C|]. intros p' u' C'. apply (contact_unique n m lx ly N M X Y h delta); [exact C'|apply C].
Qed.
Print Assumptions C78_one_state.

(** Pushing the surface further never lowers the load; the load never grows
    faster than that of a flat surface and is never below that of a flat
    surface of the same mean height. *)
Theorem C78_load_curve : forall n m lx ly h delta delta' p u p' u', (2 <= n)%nat -> (2 <= m)%nat -> 0 < lx -> 0 < ly ->
  in_contact [n; m] lx ly h delta p u -> in_contact [n; m] lx ly h delta' p' u' -> delta <= delta' ->
  mean [n; m] p <= mean [n; m] p' <= mean [n; m] p + uniform [n; m] lx ly * (delta' - delta)
  /\ 0 <= mean [n; m] p /\ uniform [n; m] lx ly * (mean [n; m] h + delta) <= mean [n; m] p.
Proof.
  intros n m lx ly h delta delta' p u p' u' N M X Y C C' L. split.
  - eapply contact_load; eassumption.
  - eapply contact_load_low; eassumption.
Qed.
Print Assumptions C78_load_curve.

(** Every positive mean pressure belongs to exactly one offset and state. *)
Theorem C78_one_load : forall n m lx ly h F, (2 <= n)%nat -> (2 <= m)%nat -> 0 < lx -> 0 < ly -> 0 < F ->
  exists delta p u, in_contact [n; m] lx ly h delta p u /\ mean [n; m] p = F
  /\ forall delta' p' u', in_contact [n; m] lx ly h delta' p' u' -> mean [n; m] p' = F ->
     delta' = delta /\ forall x y, (x < n)%nat -> (y < m)%nat -> p' x y = p x y /\ u' x y = u x y.
Proof.
  intros n m lx ly h F N M X Y PF. destruct (contact_at_load n m lx ly N M X Y h F PF) as (d & p & u & C & E). exists d, p, u.
  split; [exact C|]. split; [exact E|]. intros d' p' u' C' E'.
  apply (contact_load_unique n m lx ly N M X Y h); [exact C'|exact C|congruence|lra].
Qed.
Print Assumptions C78_one_load.

(** ** Computed states *)

(** The displacement of a step of the pipeline belongs to its pressure
    (C74_periodic); hence the violations of the contact conditions bound the
    distance to the solution at the same offset.  [h] are the heights: those of
    the topography in an elastic run. *)
Theorem C78_distance : forall o rms callback a calls r n m lx ly out h ps us eps tau,
  contact_mechanics (ccg_solver o) rms callback a = (calls, r) ->
  substrate_name a = "periodic"%string ->
  sf_grid (cm_topography a) = [n; m] -> (2 <= n)%nat -> (2 <= m)%nat -> cm_sizes a = [lx; ly] -> 0 < lx -> 0 < ly ->
  0 <= sf_area (cm_topography a) -> In out calls ->
  let p := a_val (out_pressure out) in
  let u := a_val (out_disp out) in
  in_contact [n; m] lx ly h (out_offset out) ps us ->
  (forall x y, (x < n)%nat -> (y < m)%nat -> - tau <= p x y /\ - eps <= gap h (out_offset out) u x y) ->
  let b := inner [n; m] p (gap h (out_offset out) u) + tau * total [n; m] (gap h (out_offset out) us) + eps * total [n; m] ps in
  distance [n; m] p u ps us <= b
  /\ INR n * INR m * (mean [n; m] p - mean [n; m] ps) ^ 2 <= uniform [n; m] lx ly * b.
Proof.
  intros o rms callback a calls r n m lx ly out h ps us eps tau H NM G N M SZ X Y AR IN p u C V b.
  destruct (C74_periodic _ _ _ _ _ _ _ _ _ _ H NM G SZ X Y AR out IN) as (_ & _ & PR).
  pose proof (distance_exact n m lx ly h (out_offset out) p u ps us eps tau C V) as D. fold b in D. split; [exact D|].
  eapply Rle_trans; [apply (distance_mean n m lx ly N M X Y p u ps us PR (proj1 C))|].
  apply Rmult_le_compat_l; [left; apply k0_pos; assumption|exact D].
Qed.
Print Assumptions C78_distance.

(** No tension, and contact conditions met within [eps]. *)
Theorem C78_load_error : forall o rms callback a calls r n m lx ly out h ps us eps,
  contact_mechanics (ccg_solver o) rms callback a = (calls, r) ->
  substrate_name a = "periodic"%string ->
  sf_grid (cm_topography a) = [n; m] -> (2 <= n)%nat -> (2 <= m)%nat -> cm_sizes a = [lx; ly] -> 0 < lx -> 0 < ly ->
  0 <= sf_area (cm_topography a) -> In out calls ->
  in_contact [n; m] lx ly h (out_offset out) ps us ->
  0 <= eps -> nearly_in_contact [n; m] h (out_offset out) (a_val (out_pressure out)) (a_val (out_disp out)) eps ->
  Rabs (sqrt (mean [n; m] (a_val (out_pressure out))) - sqrt (mean [n; m] ps)) <= sqrt (uniform [n; m] lx ly * eps).
Proof.
  intros o rms callback a calls r n m lx ly out h ps us eps H NM G N M SZ X Y AR IN C PE V.
  destruct (C74_periodic _ _ _ _ _ _ _ _ _ _ H NM G SZ X Y AR out IN) as (_ & _ & PR).
  exact (load_error n m lx ly N M X Y _ _ _ _ ps us eps PR C PE V).
Qed.
Print Assumptions C78_load_error.

(** A computed state that meets the contact conditions is the solution. *)
Theorem C78_solution : forall o rms callback a calls r n m lx ly out h ps us,
  contact_mechanics (ccg_solver o) rms callback a = (calls, r) ->
  substrate_name a = "periodic"%string ->
  sf_grid (cm_topography a) = [n; m] -> (2 <= n)%nat -> (2 <= m)%nat -> cm_sizes a = [lx; ly] -> 0 < lx -> 0 < ly ->
  0 <= sf_area (cm_topography a) -> In out calls ->
  in_contact [n; m] lx ly h (out_offset out) ps us ->
  nearly_in_contact [n; m] h (out_offset out) (a_val (out_pressure out)) (a_val (out_disp out)) 0 ->
  forall x y, (x < n)%nat -> (y < m)%nat -> a_val (out_pressure out) x y = ps x y /\ a_val (out_disp out) x y = us x y.
Proof.
  intros o rms callback a calls r n m lx ly out h ps us H NM G N M SZ X Y AR IN C V.
  destruct (C74_periodic _ _ _ _ _ _ _ _ _ _ H NM G SZ X Y AR out IN) as (_ & _ & PR).
  apply (contact_unique n m lx ly N M X Y h (out_offset out)); [|exact C].
  split; [exact PR|]. intros x y Q. destruct (V x y Q) as (V1 & V2 & V3). split; [exact V1|]. split; [lra|].
  destruct (Rle_lt_or_eq_dec _ _ V1) as [P|P]; [specialize (V3 P)|rewrite <- P; ring].
  replace (gap h (out_offset out) (a_val (out_disp out)) x y) with 0 by lra. ring.
Qed.
Print Assumptions C78_solution.

(** ** The solver *)
Section Solver.
  Variables (n m : nat) (lx ly : R) (hs : sub).
  Hypothesis N2 : (2 <= n)%nat.
  Hypothesis M2 : (2 <= m)%nat.
  Hypothesis X : 0 < lx.
  Hypothesis Y : 0 < ly.
  Hypothesis C0 : construct (periodic_args [n; m] [lx; ly]) = Ret hs.
  Local Notation g := [n; m].
  Lemma hs_area : area_per_pt (s_hs hs) > 0.
  Proof. exact (periodic_area g [lx; ly] hs C0 (positive_two _ _ X Y)). Qed.
  Lemma hs_response : forall j : field, periodic_response g lx ly (fun x y => j x y / area_per_pt (s_hs hs))
    (write g 0 (respond g (evaluate_disp hs) (fun p => - j (px p) (py p)))).
  Proof. intros j. exact (periodic_field g [lx; ly] hs j C0 (positive_two _ _ X Y) eq_refl). Qed.
  (** The half-space resists every force. *)
  Lemma hs_compliant : CCG_Spec.compliant (points g) (respond g (evaluate_disp hs)).
  Proof.
    intros f (z & _ & Z). pose proof hs_area as A. set (ar := area_per_pt (s_hs hs)) in *.
    pose proof (hs_response (write g 0 (fun p => - f p))) as PR. fold ar in PR.
    assert (E : (fun p : pt g => - write g 0 (fun p => - f p) (px p) (py p)) = f).
    { apply FunctionalExtensionality.functional_extensionality. intros p. rewrite write_at. ring. }
    rewrite E in PR. clear E. set (u := write g 0 (respond g (evaluate_disp hs) f)) in *.
    set (p := fun x y : nat => write g 0 (fun p => - f p) x y / ar) in *.
    pose proof (response_Comp n m lx ly N2 M2 X Y p u PR) as U. rewrite sum_points. cbn [gx gy nth].
    destruct (bounds_2 n m (sym n m lx ly) (sym_pos n m lx ly N2 M2 X Y)) as (a & b & PA & PB & F).
    pose proof (Comp_low n m lx ly N2 M2 a p (fun k l K L => proj1 (F k l K L))) as L.
    assert (PZ : p (px z) (py z) = - f z / ar) by (unfold p; rewrite write_at; reflexivity).
    pose proof (pt_inside g z) as IZ. cbn [gx gy nth] in IZ. destruct IZ as [IX IY].
    assert (S : 0 < Rsum2 n m (fun x y => p x y * p x y)).
    { apply Rlt_le_trans with (p (px z) (py z) * p (px z) (py z)).
      - rewrite PZ. apply Rlt_0_sqr. unfold Rdiv. apply Rmult_integral_contrapositive_currified; [lra|]. apply Rinv_neq_0_compat. lra.
      - apply (Rsum2_term n m (fun x y => p x y * p x y)); try assumption. intros. apply Rle_0_sqr. }
    replace (- Rsum2 n m (write g 0 (fun p0 : pt g => f p0 * respond g (evaluate_disp hs) f p0)))
      with (ar * Rsum2 n m (fun x y => p x y * Comp n m lx ly p x y)).
    - apply Rmult_lt_0_compat; [exact A|]. eapply Rlt_le_trans; [|exact L]. apply Rmult_lt_0_compat; assumption.
    - replace (- Rsum2 n m (write g 0 (fun p0 : pt g => f p0 * respond g (evaluate_disp hs) f p0)))
        with (-1 * Rsum2 n m (write g 0 (fun p0 : pt g => f p0 * respond g (evaluate_disp hs) f p0))) by ring.
      rewrite <- !Rsum2_scal. apply Rsum2_ext. intros x y Hx Hy. rewrite <- (U x y Hx Hy). unfold u, p.
      rewrite !(write_in _ g _ _ x y (conj Hx Hy)). field. lra.
  Qed.
End Solver.
Lemma hs_compliant_sub : forall n m lx ly hs, (2 <= n)%nat -> (2 <= m)%nat -> 0 < lx -> 0 < ly ->
  construct (periodic_args [n; m] [lx; ly]) = Ret hs -> forall g, g = [n; m] ->
  CCG_Spec.compliant (points g) (respond g (evaluate_disp hs)).
Proof. intros n m lx ly hs N M X Y C g ->. exact (hs_compliant n m lx ly hs N M X Y C). Qed.
Lemma filter_le : forall A (f : A -> bool) l, (List.length (filter f l) <= List.length l)%nat.
Proof. intros A f. induction l as [|a l IH]; cbn; [lia|]. destruct (f a); cbn; lia. Qed.
Lemma points_length : forall g, List.length g = 2%nat -> List.length (points g) = (gx g * gy g)%nat.
Proof.
  intros g _. unfold points.
  assert (A : forall l, (forall p, In p l -> inside g p = true) -> List.length (flat_map (here g) l) = List.length l).
  { induction l as [|p l IH]; intros H; [reflexivity|]. cbn [flat_map]. rewrite app_length, IH by (intros; apply H; right; assumption).
    unfold here. destruct (bool_dec _ _) as [K|K]; [reflexivity|]. exfalso. apply K, H. left. reflexivity. }
  rewrite A; [rewrite prod_length, !seq_length; reflexivity|]. intros [x y] I. apply in_prod_iff in I. rewrite !in_seq in I.
  apply inside_true. lia.
Qed.

(** A converged displacement-controlled calculation whose last iteration had
    status [cg] and a step (both in the verbose log). *)
Theorem C78_solver : forall o n m lx ly sb sf off pentol k r ps us,
  (2 <= n)%nat -> (2 <= m)%nat -> 0 < lx -> 0 < ly -> 0 <= pentol ->
  make_half_space "periodic" [n; m] [lx; ly] = Ret sb ->
  CCG_Spec.ccg (solver_cfg o sb sf None None off pentol) k = CCG_Model.Ok r ->
  CCG_Model.x_success r = true -> CCG_Model.x_str r = CCG_Model.Cg ->
  CCG_Model.x_tau r <> 0 \/ CCG_Model.x_nit r = 1%nat ->
  in_contact [n; m] lx ly (a_val (heights sf)) off ps us ->
  let p := fun x y => a_val (o_jac (result_object sb r)) x y / sb_area sb in
  let u := a_val (o_x (result_object sb r)) in
  let eps := pentol * (1 + sqrt (INR (n * m))) in
  nearly_in_contact [n; m] (a_val (heights sf)) off p u eps
  /\ Rabs (sqrt (mean [n; m] p) - sqrt (mean [n; m] ps)) <= sqrt (uniform [n; m] lx ly * eps).
Proof.
  intros o n m lx ly sb sf off pentol k r ps us N M X Y PT HS H SU ST TA C p u eps.
  destruct (half_space_cases _ _ _ _ HS) as [(_ & hs & C0 & SB)|(Q & _)]; [|discriminate].
  pose proof (hs_area n m lx ly hs X Y C0) as AR. destruct (half_space_shapes _ _ _ _ HS) as (_ & CS & _ & _).
  set (c := solver_cfg o sb sf None None off pentol) in *.
  assert (GS : sb_sub sb = [n; m]) by (rewrite SB; exact (hs_grid _ _ C0)).
  assert (IN : forall z : pt (sb_sub sb), (px z < n)%nat /\ (py z < m)%nat).
  { clear - GS. revert GS. generalize (sb_sub sb). intros g' -> z. exact (pt_inside [n; m] z). }
  assert (OS : forall z, CCG_Spec.on_surface c z).
  { intros z. apply cfg_surface. rewrite CS. apply inside_true. exact (IN z). }
  assert (OF : CCG_Model.x_offset r = off) by (apply CCG_Proofs.offset_kept in H; [exact H|reflexivity]).
  assert (CO : CCG_Spec.compliant (CCG_Spec.grid c) (CCG_Model.c_disp c)).
  { unfold c. rewrite cfg_grid. cbn [solver_cfg CCG_Model.c_disp]. rewrite SB. apply (hs_compliant_sub n m lx ly); try assumption.
    rewrite <- GS, SB. reflexivity. }
  destruct (CCG_Results2.converged_elastic c k r eq_refl) as (L1 & L2 & L3 & L4); try assumption; [discriminate|].
  assert (TA' : CCG_Model.x_tau r <> 0 \/ CCG_Model.x_nit r = 1%nat /\ CCG_Spec.compliant (CCG_Spec.grid c) (CCG_Model.c_disp c)) by tauto.
  specialize (L4 TA'). clear TA TA'.
  assert (NA : 0 <= sqrt (INR (CCG_Spec.n_active c r)) <= sqrt (INR (n * m))).
  { split; [apply sqrt_pos|]. apply sqrt_le_1_alt, le_INR. unfold CCG_Spec.n_active, c. rewrite cfg_grid.
    eapply Nat.le_trans; [apply filter_le|]. rewrite points_length by (rewrite GS; reflexivity). rewrite GS. cbn. lia. }
  assert (PA : 0 < sb_area sb) by (rewrite SB; exact AR).
  assert (EP : 0 <= eps) by (apply Rmult_le_pos; [exact PT|lra]).
  assert (V : nearly_in_contact [n; m] (a_val (heights sf)) off p u eps).
  { intros x y [Hx Hy]. cbn in Hx, Hy. unfold p, u. cbn [result_object o_jac o_x a_val].
    assert (HG : (x < gx (sb_sub sb))%nat /\ (y < gy (sb_sub sb))%nat) by (rewrite GS; split; assumption).
    unfold gap. rewrite !(write_in _ (sb_sub sb) _ _ x y HG). set (z := at_pt (sb_sub sb) x y HG).
    assert (IZ : In z (CCG_Spec.grid c)) by apply cfg_covers. specialize (L1 z IZ (OS z)). specialize (L2 z). specialize (L3 z).
    specialize (L4 z IZ (OS z)).
    assert (GZ : CCG_Spec.gap c r z = CCG_Model.x_x r z - a_val (heights sf) x y - off) by (unfold CCG_Spec.gap; rewrite OF; reflexivity).
    rewrite GZ in *. change (CCG_Model.c_pentol c) with pentol in *.
    split; [apply Rmult_le_pos; [exact L2|left; apply Rinv_0_lt_compat; exact PA]|].
    assert (PE : pentol <= eps).
    { unfold eps. rewrite Rmult_plus_distr_l, Rmult_1_r. assert (0 <= pentol * sqrt (INR (n * m))) by (apply Rmult_le_pos; lra). lra. }
    split; [lra|]. intros PP. destruct (CCG_Model.x_active r z) eqn:AZ.
    - specialize (L4 eq_refl). apply Rabs_def2 in L4. destruct L4 as [L4 _]. left. eapply Rlt_le_trans; [exact L4|].
      unfold eps. apply Rmult_le_compat_l; lra.
    - exfalso. destruct (L3 eq_refl) as [Z|(F & Q & _)]; [|discriminate]. rewrite Z in PP. unfold Rdiv in PP. rewrite Rmult_0_l in PP. lra. }
  split; [exact V|]. apply (load_error n m lx ly N M X Y (a_val (heights sf)) off p u ps us eps); try assumption.
  assert (SV : ccg_solver o sb sf None (mkSa (Some off) None pentol k) = Ret (result_object sb r)).
  { rewrite solver_eq by (rewrite (proj1 (half_space_shapes _ _ _ _ HS)); right; reflexivity).
    cbn [sa_offset sa_force sa_pentol sa_maxiter]. fold c. rewrite H. reflexivity. }
  assert (NN : nonneg None) by (intros ? ?; discriminate).
  destruct (solver_response _ _ _ _ _ _ NN SV) as (_ & _ & _ & U). fold u in U. rewrite U. unfold p.
  pose proof (hs_response n m lx ly hs X Y C0 (a_val (o_jac (result_object sb r)))) as PR.
  assert (W : forall g' ev (J : field), g' = [n; m] -> write g' 0 (respond g' ev (fun p => - J (px p) (py p)))
     = write [n; m] 0 (respond [n; m] ev (fun p => - J (px p) (py p)))) by (intros; subst; reflexivity).
  rewrite (W _ _ _ GS). replace (sb_area sb) with (area_per_pt (s_hs hs)) by (rewrite SB; reflexivity).
  replace (sb_disp sb) with (evaluate_disp hs) by (rewrite SB; reflexivity). exact PR.
Qed.
Print Assumptions C78_solver.

(** The solver starts from the surface pressed into the half-space; where that
    displacement is the solution, with or without gaps, it is returned. *)
Theorem C78_start : forall o rms callback a l press disp calls p ar d g c n m lx ly,
  substrate_name a = "periodic"%string -> cm_offsets a = Some l -> is_plastic_run a = false ->
  0 < op_forcetol o -> 0 < op_thermotol o -> (1 <= cm_maxiter a)%nat ->
  sf_grid (cm_topography a) = [n; m] -> cm_sizes a = [lx; ly] -> 0 < lx -> 0 < ly ->
  (forall x, In x l -> in_contact [n; m] lx ly (a_val (heights (cm_topography a))) x (press x) (disp x)
     /\ forall i j, (i < n)%nat -> (j < m)%nat -> disp x i j = Rmax 0 (a_val (heights (cm_topography a)) i j + x)) ->
  contact_mechanics (ccg_solver o) rms callback a = (calls, Ret (p, ar, d, g, c)) ->
  p = map (fun x => mean [n; m] (press x)) l /\ d = l /\ c = map (fun _ => true) l
  /\ forall k out x, nth_error calls k = Some out -> nth_error l k = Some x ->
     out_offset out = x /\
     forall i j, (i < n)%nat -> (j < m)%nat -> a_val (out_pressure out) i j = press x i j /\ a_val (out_disp out) i j = disp x i j.
Proof.
  intros o rms callback a l press disp calls p ar d g c n m lx ly NM OL EL T1 T2 MI G SZ X Y FC H.
  pose proof (C74_offsets _ _ _ _ _ _ _ _ _ _ _ OL H) as D.
  destruct (proj1 (one_mode _ _ _ _ _ _ H) l OL) as (NS0 & _ & RQ).
  destruct (elastic_steps _ _ _ _ _ _ _ _ _ _ _ _ _ _ NS0 EL H G SZ) as (LC & L1 & L2 & _ & L3 & L4 & ST).
  rewrite RQ in *. pose proof (arrays_of l calls LC) as KM.
  assert (K : forall i out, nth_error calls i = Some out -> exists x, nth_error l i = Some x
     /\ nth_error p i = Some (mean [n; m] (press x)) /\ nth_error c i = Some true
     /\ forall i j, (i < n)%nat -> (j < m)%nat -> a_val (out_pressure out) i j = press x i j /\ a_val (out_disp out) i j = disp x i j).
  { intros i out N. destruct (ST i out N) as (sb & sa & r & XO & _ & HS & AR & SV & SP & SM & C0 & C1 & C2 & _ & C3 & _ & V1 & _ & V2).
    destruct (XO l OL) as (x & LX & SO & SF).
    exists x. split; [exact LX|].
    destruct (half_space_shapes _ _ _ _ HS) as (_ & _ & _ & _ & _ & PX & PY). cbn in PX, PY.
    destruct (half_space_cases _ _ _ _ HS) as [(_ & hs & CH & SB)|(Q & _)]; [|rewrite NM in Q; discriminate].
    destruct (FC x (nth_error_In _ _ LX)) as [[PR PP] DM].
    assert (AP : 0 < lx * ly / INR (n * m)).
    { apply Rdiv_lt_0_compat; [apply Rmult_lt_0_compat; assumption|]. apply lt_0_INR. nia. }
    assert (NP : 0 < INR (n * m)) by (apply lt_0_INR; nia).
    destruct (solver_start o [n; m] [lx; ly] hs (cm_topography a) sa x (press x) (disp x) CH (positive_two _ _ X Y) eq_refl G)
      as (r' & _ & _ & _ & E' & S' & O' & J').
    - split; [rewrite SP; apply tolerance_pos|auto].
    - exact SO.
    - exact SF.
    - lia.
    - exact PR.
    - intros i' j' [I' J0]. cbn in I', J0. destruct (PP i' j' (conj I' J0)) as (P1 & _ & P3). split; [apply DM; assumption|]. split; [exact P1|exact P3].
    - subst sb. rewrite E' in SV. injection SV as <-. change (sb_area (periodic hs)) with (area_per_pt (s_hs hs)) in AR. rewrite AR in J'.
      assert (JV : forall x0 y0, (x0 < n)%nat -> (y0 < m)%nat ->
        a_val (o_jac (result_object (periodic hs) r')) x0 y0 = press x x0 y0 * (lx * ly / INR (n * m))).
      { intros x0 y0 I0 J0. apply (J' x0 y0 (conj I0 J0)). }
      assert (XV : forall x0 y0, (x0 < n)%nat -> (y0 < m)%nat -> a_val (o_x (result_object (periodic hs) r')) x0 y0 = disp x x0 y0).
      { intros x0 y0 I0 J0. apply (J' x0 y0 (conj I0 J0)). }
      destruct (amean_field n m _ _ PX PY JV) as (J1 & _ & _).
      assert (OKG : okgrid [n; m]) by (repeat split; cbn; lia).
      rewrite C0, C1, J1. cbn [result_object o_success]. rewrite S'. split; [|split; [reflexivity|]].
      + f_equal. rewrite asum_grid by exact OKG. unfold mean, HalfSpace_Spec.total. cbn [gx gy nth].
        rewrite (Rsum2_ext _ _ _ (fun i0 j0 => lx * ly / INR (n * m) * press x i0 j0)) by (intros; ring).
        rewrite Rsum2_scal, mult_INR in *. field. pose proof (lt_0_INR _ PX). pose proof (lt_0_INR _ PY). repeat split; lra.
      + intros i0 j0 I0 J0. split.
        * rewrite V2, JV by assumption. field. split; [lra|]. split; [|lra]. lra.
        * rewrite V1. apply XV; assumption. }
  split; [|split; [exact D|split]].
  - apply KM; [exact L1|]. intros i out x NO N. destruct (K i out NO) as (x' & N' & ? & _). congruence.
  - apply KM; [exact L4|]. intros i out x NO N. destruct (K i out NO) as (x' & ? & ? & ? & _). assumption.
  - intros k out x N NX. split.
    + assert (OO : nth_error d k = Some (out_offset out)).
      { destruct (step_result _ _ _ _ _ _ _ _ _ _ H G SZ k out N) as (sb & s & _ & (ss & _ & _ & NS & RT) & _ & _ & _ & _ & _ & _ & _ & OF).
        specialize (RT _ eq_refl). unfold returned in RT. injection RT as _ _ P3 _ _. rewrite P3, nth_error_map, NS. cbn. f_equal. auto. }
      rewrite D, NX in OO. congruence.
    + destruct (K k out N) as (x' & N' & _ & _ & V). rewrite NX in N'. injection N' as <-. exact V.
Qed.
Print Assumptions C78_start.

(** A wave of amplitude 1/2 at offset zero: half of the surface in contact. *)
Definition half_pressure : field := fun i _ => if Nat.eqb i 0 then PI / 2 else 0.
Definition half_disp : field := fun i _ => if Nat.eqb i 0 then 1 / 2 else 0.
Definition wave_rows : field := a_val (heights (rows (1 / 2) (- 1 / 2))).
Lemma half_contact : in_contact [2; 2]%nat 1 1 wave_rows 0 half_pressure half_disp.
Proof.
  destruct rows_k0 as [K0 K1]. pose proof PI_RGT_0 as PP.
  assert (W : forall i j, (i < 2)%nat -> (j < 2)%nat -> plane_wave [2; 2]%nat 1 0 0 i j = if Nat.eqb i 0 then 1 else -1).
  { intros i j Hi Hj. unfold plane_wave. cbn. destruct i as [|[|?]]; [| |lia]; cbn.
    - replace (2 * PI * (1 * 0 / (1 + 1) + 0 * INR j / (1 + 1)) + 0) with 0 by field. apply cos_0.
    - replace (2 * PI * (1 * 1 / (1 + 1) + 0 * INR j / (1 + 1)) + 0) with PI by field. apply cos_PI. }
  pose proof (wave_response [2; 2]%nat 1 1 1 0 0 ltac:(cbn; lia) ltac:(cbn; lia) ltac:(split; cbn; lia) ltac:(lia) (1 / 4) (1 / 4)) as PR.
  rewrite K0, K1 in PR. specialize (PR ltac:(lra) ltac:(lra) (fun k l Gk Z => wavenumber_pos _ _ _ _ _ Rlt_0_1 Rlt_0_1 Gk Z)).
  split.
  - destruct PR as [P1 P2].
    assert (EP : forall i j, (i < 2)%nat -> (j < 2)%nat -> half_pressure i j = 2 * PI / 2 * (1 / 4) * plane_wave [2; 2]%nat 1 0 0 i j + PI * (1 / 4)).
    { intros i j Hi Hj. rewrite W by assumption. unfold half_pressure. destruct (Nat.eqb i 0); field. }
    assert (EU : forall i j, (i < 2)%nat -> (j < 2)%nat -> half_disp i j = 1 / 4 * plane_wave [2; 2]%nat 1 0 0 i j + 1 / 4).
    { intros i j Hi Hj. rewrite W by assumption. unfold half_disp. destruct (Nat.eqb i 0); field. }
    split.
    + intros k l Gk Z. specialize (P1 k l Gk Z). cbn [gx gy nth] in *. rewrite (fft2_ext _ _ _ _ k l EU), (fft2_ext _ _ _ _ k l EP). exact P1.
    + unfold mean, HalfSpace_Spec.total in *. cbn [gx gy nth] in *. rewrite (Rsum2_ext _ _ _ _ EU), (Rsum2_ext _ _ _ _ EP). exact P2.
  - intros i j [Hi Hj]. unfold half_pressure, half_disp, gap, wave_rows. cbn. destruct (Nat.eqb i 0); lra.
Qed.
Lemma half_mean : mean [2; 2]%nat half_pressure = PI / 4.
Proof. unfold mean, HalfSpace_Spec.total, Rsum2, half_pressure. cbn. field. Qed.

Example C78_nonvacuous :
  in_contact [2; 2]%nat 1 1 wave_rows 0 half_pressure half_disp /\ mean [2; 2]%nat half_pressure = PI / 4
  /\ uniform [2; 2]%nat 1 1 = PI
  /\ exists calls p ar g c out, contact_mechanics (ccg_solver usual) deviation silent (rows_at (1 / 2) (- 1 / 2) (Some [0]) None)
       = (calls, Ret (p, ar, [0], g, c)) /\ p = [PI / 4] /\ c = [true]
     /\ nth_error calls 0%nat = Some out /\ out_offset out = 0
     /\ nearly_in_contact [2; 2]%nat wave_rows 0 (a_val (out_pressure out)) (a_val (out_disp out)) 0
     /\ a_val (out_pressure out) 0%nat 0%nat = PI / 2 /\ gap wave_rows 0 (a_val (out_disp out)) 1%nat 0%nat = 1 / 2.
Proof.
  pose proof half_contact as HC. split; [exact HC|]. split; [exact half_mean|]. split; [exact (proj1 rows_k0)|].
  destruct (rows_returns (1 / 2) (- 1 / 2) (Some [0]) None deviation eq_refl ltac:(cbn; lia)) as (calls & p & ar & d & g & c & H).
  destruct (calls_nonempty deviation _ _ (Some [0]) None calls p ar d g c ltac:(cbn; lia) H eq_refl) as (out & NO).
  destruct (C78_start usual deviation silent (rows_at (1 / 2) (- 1 / 2) (Some [0]) None) [0] (fun _ => half_pressure) (fun _ => half_disp)
    calls p ar d g c 2 2 1 1) as (-> & -> & -> & V); try reflexivity; try lra; try lia; try exact H; try (cbn; lra); try (cbn; lia).
  - intros x [<-|[]]. split; [exact HC|]. intros i j Hi Hj. unfold half_disp. cbn. destruct (Nat.eqb i 0); [rewrite Rmax_right|rewrite Rmax_left]; lra.
  - destruct (V 0%nat out 0 NO eq_refl) as [OO V']. exists calls. eexists. exists ar, g. eexists. exists out. split; [exact H|]. cbn [map]. rewrite half_mean.
    split; [reflexivity|]. split; [reflexivity|]. split; [exact NO|]. split; [exact OO|].
    destruct HC as [_ HC]. split.
    + intros i j Q. pose proof Q as [Hi Hj]. cbn in Hi, Hj. destruct (HC i j Q) as (C1 & C2 & C3). destruct (V' i j Hi Hj) as [E1 E2].
      unfold gap in *. rewrite E1, E2. split; [exact C1|]. split; [lra|]. intros P. apply Rmult_integral in C3. lra.
    + destruct (V' 0%nat 0%nat ltac:(lia) ltac:(lia)) as [E1 _]. destruct (V' 1%nat 0%nat ltac:(lia) ltac:(lia)) as [_ E2].
      unfold gap. rewrite E1, E2. unfold half_pressure, half_disp, wave_rows. cbn. split; lra.
Qed.

(** Hypotheses of [C78_solver]. *)
Example C78_solver_nonvacuous : exists sb r,
  make_half_space "periodic" [2; 2]%nat [1; 1] = Ret sb
  /\ CCG_Spec.ccg (solver_cfg usual sb (rows (1 / 2) (- 1 / 2)) None None 0 (1 / 100)) 100 = CCG_Model.Ok r
  /\ CCG_Model.x_success r = true /\ CCG_Model.x_str r = CCG_Model.Cg /\ CCG_Model.x_nit r = 1%nat.
Proof.
  destruct (half_space_ok "periodic" 2 2 1 1 (or_introl (conj eq_refl (conj (le_n 2) (le_n 2))))) as (sb & HS & _). exists sb.
  destruct (half_space_cases _ _ _ _ HS) as [(_ & hs & CH & ->)|(Q & _)]; [|discriminate].
  destruct (solver_start usual [2; 2]%nat [1; 1] hs (rows (1 / 2) (- 1 / 2)) (mkSa (Some 0) None (1 / 100) 100) 0 half_pressure half_disp
    CH (positive_two _ _ Rlt_0_1 Rlt_0_1) eq_refl eq_refl) as (r & E & ST & NI & _ & S1 & _); try reflexivity.
  - split; [cbn; lra|split; cbn; lra].
  - cbn. lia.
  - exact (proj1 half_contact).
  - intros i j Q. destruct half_contact as [_ HC]. destruct (HC i j Q) as (C1 & _ & C3). split; [|split; [exact C1|exact C3]].
    unfold half_disp. cbn. destruct (Nat.eqb i 0); [rewrite Rmax_right|rewrite Rmax_left]; lra.
  - exists r. split; [exact HS|]. split; [exact E|]. auto.
Qed.
