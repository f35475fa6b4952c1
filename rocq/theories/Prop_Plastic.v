(** * C84 Contact with a surface that yields at a hardness *)
From Coq Require Import Reals Lia Lra List Arith Bool String.
From Coquelicot Require Import Rcomplements Complex.
From Verif Require Import Py FFT_Base HalfSpace_Spec HalfSpace_Model HalfSpace_Results Systems_Model Systems_Spec Systems_Proofs Pipeline_Model Pipeline_Spec Pipeline_More
  Contact_Spec Contact_Model Contact_Proofs Contact_Results Contact_Results2 Contact_Results3 Contact_Load Prop_Pipeline Prop_Contact
  Signorini_Spec Signorini_Base Signorini_Periodic Prop_Signorini Plastic_Spec Plastic_Proofs Prop_Systems.
From Verif Require CCG_Model CCG_Real CCG_Spec CCG_Q CCG_Witness CCG_Proofs CCG_Results2 CCG_Plastic CCG_Harden CCG_Spurious Prop_Solver HalfSpace_Witness.
From Coq Require Import List.
Import ListNotations.
Local Open Scope R_scope.

(** ** The problem *)
Theorem C84_one_state : forall n m lx ly H h delta, (2 <= n)%nat -> (2 <= m)%nat -> 0 < lx -> 0 < ly -> 0 <= H ->
  exists p u, in_plastic_contact [n; m] lx ly H h delta p u
  /\ forall p' u', in_plastic_contact [n; m] lx ly H h delta p' u' ->
     forall x y, (x < n)%nat -> (y < m)%nat -> p' x y = p x y /\ u' x y = u x y.
Proof.
  intros n m lx ly H h delta N M X Y PH. destruct (plastic_exists n m lx ly H N M X Y PH h) as [p C]. exists (p delta). eexists.
  split; [apply C|]. intros p' u' C'. apply (plastic_unique n m lx ly H N M X Y h delta); [exact C'|apply C].
Qed.
Print Assumptions C84_one_state.

(** Pushing the surface further never lowers the load, which stays below the
    hardness. *)
Theorem C84_load_curve : forall n m lx ly H h delta delta' p u p' u', (2 <= n)%nat -> (2 <= m)%nat -> 0 < lx -> 0 < ly -> 0 <= H ->
  in_plastic_contact [n; m] lx ly H h delta p u -> in_plastic_contact [n; m] lx ly H h delta' p' u' -> delta <= delta' ->
  mean [n; m] p <= mean [n; m] p' <= mean [n; m] p + uniform [n; m] lx ly * (delta' - delta)
  /\ 0 <= mean [n; m] p <= H.
Proof.
  intros n m lx ly H h delta delta' p u p' u' N M X Y PH C C' L. split.
  - eapply plastic_load; eassumption.
  - eapply plastic_range; eassumption.
Qed.
Print Assumptions C84_load_curve.

(** Every mean pressure between zero and the hardness is reached, and pressure
    and displacement follow from it. *)
Theorem C84_one_load : forall n m lx ly H h F, (2 <= n)%nat -> (2 <= m)%nat -> 0 < lx -> 0 < ly -> 0 <= F <= H ->
  exists delta p u, in_plastic_contact [n; m] lx ly H h delta p u /\ mean [n; m] p = F
  /\ forall delta' p' u', in_plastic_contact [n; m] lx ly H h delta' p' u' -> mean [n; m] p' = F ->
     forall x y, (x < n)%nat -> (y < m)%nat -> p' x y = p x y /\ u' x y = u x y.
Proof.
  intros n m lx ly H h F N M X Y PF. assert (PH : 0 <= H) by lra.
  destruct (plastic_at_load n m lx ly H N M X Y PH h F PF) as (d & p & u & C & E). exists d, p, u.
  split; [exact C|]. split; [exact E|]. intros d' p' u' C' E'.
  apply (plastic_load_unique n m lx ly H N M X Y h d' p' u' d p u); [exact C'|exact C|congruence].
Qed.
Print Assumptions C84_one_load.

(** At and below the hardness the state is the elastic one. *)
Theorem C84_elastic : forall n m lx ly H h delta p u,
  (in_contact [n; m] lx ly h delta p u -> (forall x y, (x < n)%nat -> (y < m)%nat -> p x y <= H) -> in_plastic_contact [n; m] lx ly H h delta p u)
  /\ (in_plastic_contact [n; m] lx ly H h delta p u -> (forall x y, (x < n)%nat -> (y < m)%nat -> p x y < H) -> in_contact [n; m] lx ly h delta p u).
Proof. intros n m lx ly H h delta p u. split; [apply elastic_plastic|apply plastic_elastic]. Qed.
Print Assumptions C84_elastic.

(** The surface yields everywhere exactly from the offset on at which the
    uniform pressure [H] has moved the half-space below all its points; below
    offset [- max h] there is no contact. *)
Theorem C84_full : forall n m lx ly H h delta p u, (2 <= n)%nat -> (2 <= m)%nat -> 0 < lx -> 0 < ly -> 0 < H ->
  in_plastic_contact [n; m] lx ly H h delta p u ->
  ((forall x y, (x < n)%nat -> (y < m)%nat -> p x y = H)
     <-> (forall x y, (x < n)%nat -> (y < m)%nat -> H / uniform [n; m] lx ly <= h x y + delta))
  /\ ((forall x y, (x < n)%nat -> (y < m)%nat -> h x y + delta <= 0) -> mean [n; m] p = 0).
Proof.
  intros n m lx ly H h delta p u N M X Y PH C. split.
  - exact (plastic_full n m lx ly H N M X Y (Rlt_le _ _ PH) h delta p u PH C).
  - exact (plastic_none n m lx ly H N M X Y (Rlt_le _ _ PH) h delta p u C).
Qed.
Print Assumptions C84_full.

(** Unloading: the flattened surface carries the same state elastically, so
    loading it again to the same offset causes no further flow.  Heights are
    only lowered. *)
Theorem C84_flattened : forall n m lx ly H h delta p u, 0 < H ->
  in_plastic_contact [n; m] lx ly H h delta p u ->
  let h' := flattened H h delta p u in
  in_contact [n; m] lx ly h' delta p u /\ in_plastic_contact [n; m] lx ly H h' delta p u
  /\ (forall x y, flattened H h' delta p u x y = h' x y)
  /\ (forall x y, (x < n)%nat -> (y < m)%nat -> h' x y <= h x y /\ (p x y < H -> h' x y = h x y)).
Proof.
  intros n m lx ly H h delta p u PH C h'. destruct (flattened_contact n m lx ly H h delta p u C) as [F1 F2].
  split; [exact F1|]. split; [apply elastic_plastic; [exact F1|]|].
  - intros x y Hx Hy. destruct C as [_ C]. destruct (C x y (conj Hx Hy)) as ([_ ?] & _). assumption.
  - split.
    + intros x y. unfold h', flattened. destruct (Rlt_dec (p x y) H); reflexivity.
    + intros x y Hx Hy. split; [apply F2; auto|]. intros L. unfold h', flattened. destruct (Rlt_dec (p x y) H); [reflexivity|lra].
Qed.
Print Assumptions C84_flattened.

(** ** The solver *)

(** The conditions at the end of a converged calculation whose last status was
    [cg], for any substrate. *)
Theorem C84_conditions : forall (P : Type) (c : @CCG_Model.cfg R P) H n r,
  CCG_Model.c_hard c = Some (CCG_Model.HScalar H) -> 0 < H -> CCG_Spec.offset_control c ->
  CCG_Spec.ccg c n = CCG_Model.Ok r -> CCG_Model.x_success r = true -> CCG_Model.x_str r = CCG_Model.Cg ->
  CCG_Model.x_tau r <> 0 \/ (CCG_Model.x_nit r = 1%nat /\ CCG_Spec.compliant (CCG_Spec.grid c) (CCG_Model.c_disp c)) ->
  let eps := CCG_Model.c_pentol c * (1 + sqrt (INR (CCG_Spec.n_active c r))) in
  forall p, In p (CCG_Spec.grid c) -> CCG_Spec.on_surface c p ->
    0 <= CCG_Model.x_jac r p <= H
    /\ (CCG_Model.x_jac r p < H -> - CCG_Model.c_pentol c < CCG_Spec.gap c r p)
    /\ (0 < CCG_Model.x_jac r p -> CCG_Spec.gap c r p < eps)
    /\ (forall m, CCG_Model.x_plastic r = Some m -> m p = true -> 0 < CCG_Model.x_jac r p)
    /\ (forall m, CCG_Model.x_plastic r = Some m -> m p = false -> 0 < CCG_Model.x_jac r p -> Rabs (CCG_Spec.gap c r p) < eps).
Proof. intros P c H n r Eh PH Ec. exact (CCG_Plastic.plastic_conditions c H Eh PH Ec n r). Qed.
Print Assumptions C84_conditions.

(** Any status, any control: a flow mask means success; flagged points lie
    below [pentol], the others above [- pentol]. *)
Theorem C84_mask : forall (P : Type) (c : @CCG_Model.cfg R P) n r m,
  CCG_Spec.ccg c n = CCG_Model.Ok r -> CCG_Model.x_plastic r = Some m ->
  CCG_Model.x_success r = true /\
  forall p, In p (CCG_Spec.grid c) -> CCG_Spec.on_surface c p ->
    (m p = true -> CCG_Spec.gap c r p < CCG_Model.c_pentol c) /\ (m p = false -> - CCG_Model.c_pentol c < CCG_Spec.gap c r p).
Proof. intros P c n r m. exact (CCG_Plastic.plastic_mask c n r m). Qed.
Print Assumptions C84_mask.

(** A hardness that no iterate reaches changes nothing but the flow mask. *)
Theorem C84_unreached : forall (P : Type) (c : @CCG_Model.cfg R P) H n r,
  CCG_Spec.elastic c -> CCG_Spec.offset_control c -> 0 < H -> CCG_Spec.ccg c n = CCG_Model.Ok r ->
  (forall k s, (k <= CCG_Model.x_nit r)%nat -> CCG_Spec.after c k = CCG_Model.Ok s ->
     (exists p, In p (CCG_Spec.grid c) /\ CCG_Model.s_f s p < 0) /\ forall p, - H < CCG_Model.s_f s p) ->
  fst (CCG_Model.run_trace (CCG_Real.ROps P) (CCG_Harden.harden H c) n) = fst (CCG_Model.run_trace (CCG_Real.ROps P) c n)
  /\ exists r', CCG_Spec.ccg (CCG_Harden.harden H c) n = CCG_Model.Ok r' /\ CCG_Harden.unmarked r' = r.
Proof. intros P c H n r El Ec PH. exact (CCG_Harden.harden_run c H El Ec PH n r). Qed.
Print Assumptions C84_unreached.

(** Not so with status [mix]: for all tolerances there is a calculation with
    the default start and mixing parameters that reports success while a point
    below the hardness lies deep inside the surface. *)
Theorem C84_mixing_refuted : forall pentol forcetol thermotol, 0 < pentol -> 0 < forcetol -> 0 < thermotol ->
  exists (c : @CCG_Model.cfg R nat) n r,
    CCG_Model.c_pentol c = pentol /\ CCG_Model.c_forcetol c = forcetol /\ CCG_Model.c_thermotol c = thermotol
    /\ CCG_Model.c_u0 c = None /\ CCG_Model.c_f0 c = None
    /\ CCG_Model.c_mixfac c = 1 / 10 /\ CCG_Model.c_mixdec c = 95 / 100 /\ CCG_Model.c_minmix c = 10%nat
    /\ CCG_Model.c_hard c = Some (CCG_Model.HScalar 5) /\ CCG_Spec.offset_control c
    /\ CCG_Spec.linear (CCG_Model.c_disp c) /\ CCG_Spec.self_adjoint (CCG_Spec.grid c) (CCG_Model.c_disp c)
    /\ CCG_Spec.compliant (CCG_Spec.grid c) (CCG_Model.c_disp c)
    /\ (forall u p, CCG_Model.c_disp c (CCG_Model.c_force c u) p = u p)
    /\ CCG_Spec.ccg c n = CCG_Model.Ok r /\ CCG_Model.x_success r = true
    /\ exists p, In p (CCG_Spec.grid c) /\ CCG_Spec.on_surface c p
       /\ 0 < CCG_Model.x_jac r p < 5 /\ CCG_Spec.gap c r p < -4.
Proof.
  intros pt ft tt T1 T2 T3. destruct (CCG_Spurious.spur_run pt ft tt T1 T2 T3) as (n & r & E & S & J & G).
  exists (CCG_Spurious.spur pt ft tt), n, r.
  do 8 (split; [reflexivity|]). split; [reflexivity|]. split; [reflexivity|].
  split; [exact CCG_Spurious.springs_linear|]. split; [exact (CCG_Spurious.springs_adjoint pt ft tt)|].
  split; [exact (CCG_Spurious.springs_compliant pt ft tt)|]. split; [exact CCG_Spurious.springs_inverse|].
  split; [exact E|]. split; [exact S|]. exists 0%nat. split; [left; reflexivity|]. split; [split; reflexivity|]. split; [exact J|exact G].
Qed.
Print Assumptions C84_mixing_refuted.

(** On the half-space the solver works with forces: its hardness is the
    hardness times the area of a point (Systems.py hands over the product). *)
Lemma half_space_run : forall o n m lx ly sb sf H off pentol k r,
  (2 <= n)%nat -> (2 <= m)%nat -> 0 < lx -> 0 < ly -> 0 <= pentol -> 0 < H ->
  make_half_space "periodic" [n; m] [lx; ly] = Ret sb ->
  CCG_Spec.ccg (solver_cfg o sb sf (Some (H * sb_area sb)) None off pentol) k = CCG_Model.Ok r ->
  CCG_Model.x_success r = true -> CCG_Model.x_str r = CCG_Model.Cg ->
  CCG_Model.x_tau r <> 0 \/ CCG_Model.x_nit r = 1%nat ->
  let p := fun x y => a_val (o_jac (result_object sb r)) x y / sb_area sb in
  let u := a_val (o_x (result_object sb r)) in
  let eps := pentol * (1 + sqrt (INR (n * m))) in
  periodic_response [n; m] lx ly p u
  /\ forall x y, (x < n)%nat -> (y < m)%nat ->
     (0 <= p x y <= H /\ (p x y < H -> - pentol <= gap (a_val (heights sf)) off u x y)
      /\ (0 < p x y -> gap (a_val (heights sf)) off u x y <= eps))
     /\ (o_plastic (result_object sb r) x y = true -> 0 < p x y)
     /\ (o_plastic (result_object sb r) x y = false -> 0 < p x y -> Rabs (gap (a_val (heights sf)) off u x y) <= eps).
Proof.
  intros o n m lx ly sb sf H off pentol k r N M X Y PT PH HS E SU ST TA p u eps.
  destruct (half_space_cases _ _ _ _ HS) as [(_ & hs & C0 & SB)|(Q & _)]; [|discriminate].
  pose proof (hs_area n m lx ly hs X Y C0) as AR. destruct (half_space_shapes _ _ _ _ HS) as (_ & CS & _ & _).
  set (c := solver_cfg o sb sf (Some (H * sb_area sb)) None off pentol) in *.
  assert (GS : sb_sub sb = [n; m]) by (rewrite SB; exact (hs_grid _ _ C0)).
  assert (IN : forall z : pt (sb_sub sb), (px z < n)%nat /\ (py z < m)%nat).
  { clear - GS. revert GS. generalize (sb_sub sb). intros g' -> z. exact (pt_inside [n; m] z). }
  assert (OS : forall z, CCG_Spec.on_surface c z).
  { intros z. apply cfg_surface. rewrite CS. apply inside_true. exact (IN z). }
  assert (OF : CCG_Model.x_offset r = off) by (apply CCG_Proofs.offset_kept in E; [exact E|reflexivity]).
  assert (CO : CCG_Spec.compliant (CCG_Spec.grid c) (CCG_Model.c_disp c)).
  { unfold c. rewrite cfg_grid. cbn [solver_cfg CCG_Model.c_disp]. rewrite SB. apply (hs_compliant_sub n m lx ly); try assumption.
    rewrite <- GS, SB. reflexivity. }
  assert (PA : 0 < sb_area sb) by (rewrite SB; exact AR).
  assert (PHA : 0 < H * sb_area sb) by (apply Rmult_lt_0_compat; assumption).
  assert (TA' : CCG_Model.x_tau r <> 0 \/ CCG_Model.x_nit r = 1%nat /\ CCG_Spec.compliant (CCG_Spec.grid c) (CCG_Model.c_disp c)) by tauto.
  pose proof (CCG_Plastic.plastic_conditions c (H * sb_area sb) eq_refl PHA eq_refl k r E SU ST TA') as PC. clear TA TA'.
  assert (NA : 0 <= sqrt (INR (CCG_Spec.n_active c r)) <= sqrt (INR (n * m))).
  { split; [apply sqrt_pos|]. apply sqrt_le_1_alt, le_INR. unfold CCG_Spec.n_active, c. rewrite cfg_grid.
    eapply Nat.le_trans; [apply filter_le|]. rewrite points_length by (rewrite GS; reflexivity). rewrite GS. cbn. lia. }
  assert (EP : pentol * (1 + sqrt (INR (CCG_Spec.n_active c r))) <= eps) by (unfold eps; apply Rmult_le_compat_l; lra).
  assert (EX : exists mk, CCG_Model.x_plastic r = Some mk).
  { destruct (CCG_Model.x_plastic r) as [mk|] eqn:EM; [eauto|]. exfalso. revert EM.
    apply (CCG_Proofs.run_exit c (fun _ => True)) in E; auto.
    destruct E as (s & fu & _ & Hi & [[Hc ->]| ->]); [|discriminate SU]. cbn [CCG_Model.converged_result CCG_Model.x_plastic]. discriminate. }
  destruct EX as (mk & EM).
  split.
  { assert (SV : ccg_solver o sb sf (Some (H * sb_area sb)) (mkSa (Some off) None pentol k) = Ret (result_object sb r)).
    { rewrite solver_eq by (rewrite (proj1 (half_space_shapes _ _ _ _ HS)); right; reflexivity).
      cbn [sa_offset sa_force sa_pentol sa_maxiter]. fold c. rewrite E. reflexivity. }
    assert (NN : nonneg (Some (H * sb_area sb))) by (intros q [= <-]; lra).
    destruct (solver_response _ _ _ _ _ _ NN SV) as (_ & _ & _ & U). fold u in U. rewrite U. unfold p.
    pose proof (hs_response n m lx ly hs X Y C0 (a_val (o_jac (result_object sb r)))) as PR.
    assert (W : forall g' ev (J : field), g' = [n; m] -> write g' 0 (respond g' ev (fun p => - J (px p) (py p)))
       = write [n; m] 0 (respond [n; m] ev (fun p => - J (px p) (py p)))) by (intros; subst; reflexivity).
    rewrite (W _ _ _ GS). replace (sb_area sb) with (area_per_pt (s_hs hs)) by (rewrite SB; reflexivity).
    replace (sb_disp sb) with (evaluate_disp hs) by (rewrite SB; reflexivity). exact PR. }
  intros x y Hx Hy.
  assert (HG : (x < gx (sb_sub sb))%nat /\ (y < gy (sb_sub sb))%nat) by (rewrite GS; split; assumption).
  unfold p, u, gap. cbn [result_object o_jac o_x a_val o_plastic]. rewrite EM.
  rewrite !(write_in _ (sb_sub sb) _ _ x y HG). set (z := at_pt (sb_sub sb) x y HG).
  assert (IZ : In z (CCG_Spec.grid c)) by apply cfg_covers.
  destruct (PC z IZ (OS z)) as (L1 & L2 & L3 & L4 & L5).
  assert (GZ : CCG_Spec.gap c r z = CCG_Model.x_x r z - a_val (heights sf) x y - off) by (unfold CCG_Spec.gap; rewrite OF; reflexivity).
  rewrite GZ in *. change (CCG_Model.c_pentol c) with pentol in *.
  assert (LT : forall a, a / sb_area sb < H -> a < H * sb_area sb).
  { intros a Q. apply (Rmult_lt_compat_r (sb_area sb)) in Q; [|exact PA]. unfold Rdiv in Q. rewrite Rmult_assoc, Rinv_l, Rmult_1_r in Q by lra. exact Q. }
  assert (P0 : forall a, 0 < a / sb_area sb -> 0 < a).
  { intros a Q. apply (Rmult_lt_compat_r (sb_area sb)) in Q; [|exact PA]. unfold Rdiv in Q. rewrite Rmult_assoc, Rinv_l, Rmult_1_r, Rmult_0_l in Q by lra. exact Q. }
  split; [split; [split|split]|split].
  - apply Rmult_le_pos; [apply L1|left; apply Rinv_0_lt_compat; exact PA].
  - apply (Rmult_le_reg_r (sb_area sb)); [exact PA|]. unfold Rdiv. rewrite Rmult_assoc, Rinv_l, Rmult_1_r by lra. apply L1.
  - intros Q. left. apply L2, LT, Q.
  - intros Q. specialize (L3 (P0 _ Q)). lra.
  - intros Q. apply Rdiv_lt_0_compat; [exact (L4 mk EM Q)|exact PA].
  - intros Q Q'. specialize (L5 mk EM Q (P0 _ Q')). lra.
Qed.

Theorem C84_solver : forall o n m lx ly sb sf H off pentol k r ps us,
  (2 <= n)%nat -> (2 <= m)%nat -> 0 < lx -> 0 < ly -> 0 <= pentol -> 0 < H ->
  make_half_space "periodic" [n; m] [lx; ly] = Ret sb ->
  CCG_Spec.ccg (solver_cfg o sb sf (Some (H * sb_area sb)) None off pentol) k = CCG_Model.Ok r ->
  CCG_Model.x_success r = true -> CCG_Model.x_str r = CCG_Model.Cg ->
  CCG_Model.x_tau r <> 0 \/ CCG_Model.x_nit r = 1%nat ->
  in_plastic_contact [n; m] lx ly H (a_val (heights sf)) off ps us ->
  let p := fun x y => a_val (o_jac (result_object sb r)) x y / sb_area sb in
  let u := a_val (o_x (result_object sb r)) in
  let eps := pentol * (1 + sqrt (INR (n * m))) in
  nearly_in_plastic_contact [n; m] H (a_val (heights sf)) off p u eps
  /\ Rabs (sqrt (mean [n; m] p) - sqrt (mean [n; m] ps)) <= sqrt (uniform [n; m] lx ly * eps).
Proof.
  intros o n m lx ly sb sf H off pentol k r ps us N M X Y PT PH HS E SU ST TA C p u eps.
  destruct (half_space_run o n m lx ly sb sf H off pentol k r N M X Y PT PH HS E SU ST TA) as [PR V].
  fold p u eps in PR, V.
  assert (PE : pentol <= eps).
  { unfold eps. rewrite Rmult_plus_distr_l, Rmult_1_r. assert (0 <= pentol * sqrt (INR (n * m))) by (apply Rmult_le_pos; [exact PT|apply sqrt_pos]). lra. }
  assert (VV : nearly_in_plastic_contact [n; m] H (a_val (heights sf)) off p u eps).
  { intros x y [Hx Hy]. destruct (V x y Hx Hy) as ((V1 & V2 & V3) & _). split; [exact V1|]. split; [|exact V3]. intros Q. specialize (V2 Q). lra. }
  split; [exact VV|]. apply (plastic_load_error n m lx ly H N M X Y (a_val (heights sf)) off p u ps us eps); try assumption. lra.
Qed.
Print Assumptions C84_solver.

(** ** A load step of the plastic system *)
Lemma half_space_topo : forall name n m sizes sb, make_half_space name [n; m] sizes = Ret sb -> sb_topo sb = [n; m].
Proof.
  intros name n m sizes sb HS. destruct (half_space_shapes _ _ _ _ HS) as (SG & CS & _).
  destruct (half_space_cases _ _ _ _ HS) as [(_ & s & C0 & ->)|(_ & s & C0 & ->)].
  - exact SG.
  - exact CS.
Qed.
Lemma step_result_object : forall o name n m sizes sb sf sa y y' sf' r,
  make_half_space name [n; m] sizes = Ret sb -> sf_grid sf = [n; m] -> 0 <= sf_hardness sf * sf_area sf ->
  plastic_minimize_proxy sb sf (fun h => ccg_solver o sb sf (Some h) sa) y = (y', sf', Ret r) ->
  exists r', CCG_Spec.ccg (solver_cfg o sb sf (Some (sf_hardness sf * sf_area sf)) (sa_force sa)
      (match sa_offset sa with Some x => x | None => 0 end) (sa_pentol sa)) (sa_maxiter sa) = CCG_Model.Ok r'
    /\ r = result_object sb r'
    /\ if o_success r then
         sf_grid sf' = [n; m]
         /\ forall i j, (i < n)%nat -> (j < m)%nat ->
            a_val (heights sf') i j = if o_plastic r i j then a_val (o_x r) i j - o_offset r else a_val (heights sf) i j
       else sf' = sf.
Proof.
  intros o name n m sizes sb sf sa y y' sf' r HS G PH H. pose proof H as H0. unfold plastic_minimize_proxy in H0.
  destruct (minimize_proxy sb (ccg_solver o sb sf (Some (sf_hardness sf * sf_area sf)) sa) y) as [y1 [r1|e]] eqn:MP; [|discriminate].
  assert (SV : ccg_solver o sb sf (Some (sf_hardness sf * sf_area sf)) sa = Ret r1).
  { unfold minimize_proxy, mbind, upd, lift, mret in MP.
    destruct (ccg_solver o sb sf (Some (sf_hardness sf * sf_area sf)) sa) as [r2|e]; [|discriminate].
    destruct (o_success r2).
    - destruct (sb_check sb (o_jac r2)); cbn in MP; congruence.
    - cbn in MP. congruence. }
  assert (R1 : r1 = r).
  { destruct (o_success r1); [|congruence]. destruct (compute_gap sb sf (o_x r1) (o_offset r1)); congruence. }
  subst r1. destruct (solver_inv _ _ _ _ _ _ SV) as (r' & E & ->). exists r'. split; [exact E|]. split; [reflexivity|].
  destruct (o_success (result_object sb r')) eqn:SU; [|congruence].
  destruct (half_space_shapes _ _ _ _ HS) as (_ & _ & LL & LX & LY & PX & PY).
  pose proof (half_space_topo _ _ _ _ _ HS) as T. rewrite <- G in T.
  assert (CV : covers (o_x (result_object sb r')) (sf_grid sf)).
  { assert (LS : List.length (sb_sub sb) = 2%nat) by (rewrite LL; reflexivity).
    unfold covers. rewrite G. cbn [result_object o_x a_shape]. cbn [gx gy nth List.length] in *. split; [exact LS|]. exact (conj LX LY). }
  assert (OK : okgrid (sf_grid sf)) by (rewrite G; split; [right; reflexivity|exact (conj PX PY)]).
  destruct (C44_plastic_success _ _ _ _ _ _ _ H SU OK T CV) as (G' & HH & _).
  split; [congruence|]. intros i j Hi Hj. apply HH. rewrite G. split; assumption.
Qed.

(** What a step does, whatever the solver did: no point is raised by more than
    the tolerance, and after a successful step none lies deeper than that
    inside the surface. *)
Theorem C84_step : forall o name n m sizes sb sf sa y y' sf' out,
  make_half_space name [n; m] sizes = Ret sb -> sf_grid sf = [n; m] -> 0 <= sf_hardness sf * sf_area sf -> 0 <= sa_pentol sa ->
  plastic_minimize_proxy sb sf (fun h => ccg_solver o sb sf (Some h) sa) y = (y', sf', out) ->
  forall i j, (i < n)%nat -> (j < m)%nat ->
    a_val (heights sf') i j <= a_val (heights sf) i j + sa_pentol sa
    /\ forall r, out = Ret r -> o_success r = true ->
       - sa_pentol sa <= gap (a_val (heights sf')) (o_offset r) (a_val (o_x r)) i j.
Proof.
  intros o name n m sizes sb sf sa y y' sf' out HS G PH PT H i j Hi Hj. destruct out as [r|e].
  - destruct (step_result_object _ _ _ _ _ _ _ _ _ _ _ _ HS G PH H) as (r' & E & -> & S).
    destruct (o_success (result_object sb r')) eqn:SU.
    2:{ subst sf'. split; [lra|]. intros r [= <-] SU'. congruence. }
    destruct S as [_ S]. rewrite (S i j Hi Hj).
    destruct (half_space_shapes _ _ _ _ HS) as (_ & CS & _ & LX & LY & _). cbn [gx gy nth] in LX, LY.
    assert (HG : (i < gx (sb_sub sb))%nat /\ (j < gy (sb_sub sb))%nat) by lia.
    set (c := solver_cfg o sb sf (Some (sf_hardness sf * sf_area sf)) (sa_force sa) (match sa_offset sa with Some x => x | None => 0 end) (sa_pentol sa)) in *.
    assert (EX : exists mk, CCG_Model.x_plastic r' = Some mk).
    { destruct (CCG_Model.x_plastic r') as [mk|] eqn:EM; [eauto|]. exfalso. revert EM SU.
      apply (CCG_Proofs.run_exit c (fun _ => True)) in E; auto.
      destruct E as (s & fu & _ & Hz & [[Hc ->]| ->]); cbn [result_object o_success CCG_Model.converged_result CCG_Model.x_plastic]; discriminate. }
    destruct EX as (mk & EM). destruct (CCG_Plastic.plastic_mask c _ r' mk E EM) as [_ PM].
    cbn [result_object o_plastic o_x o_offset a_val] in *. rewrite EM in *. rewrite !(write_in _ (sb_sub sb) _ _ i j HG) in *.
    set (z := at_pt (sb_sub sb) i j HG) in *.
    assert (OS : CCG_Spec.on_surface c z) by (apply cfg_surface; rewrite CS; apply inside_true; split; assumption).
    destruct (PM z (cfg_covers _ _ _ _ _ _ _ z) OS) as [P1 P2].
    assert (GZ : CCG_Spec.gap c r' z = CCG_Model.x_x r' z - a_val (heights sf) i j - CCG_Model.x_offset r') by reflexivity.
    rewrite GZ in *. change (CCG_Model.c_pentol c) with (sa_pentol sa) in *.
    split.
    + destruct (mk z); [specialize (P1 eq_refl)|]; lra.
    + intros r [= <-] _. unfold gap. rewrite (S i j Hi Hj). cbn [result_object o_x a_val o_offset]. rewrite !(write_in _ (sb_sub sb) _ _ i j HG). fold z.
      destruct (mk z); [lra|]. specialize (P2 eq_refl). lra.
  - assert (sf' = sf).
    { unfold plastic_minimize_proxy in H. destruct (minimize_proxy _ _ _) as [y1 [r1|e1]]; [|congruence].
      destruct (o_success r1); [|congruence]. destruct (compute_gap _ _ _ _); congruence. }
    subst sf'. split; [lra|]. discriminate.
Qed.
Print Assumptions C84_step.

(** Surfaces reached by [k] load steps, each with its own offset or load. *)
Inductive steps_to (o : options) (sb : substrate) (pentol : R) : nat -> surface -> surface -> Prop :=
| no_step : forall sf, steps_to o sb pentol 0 sf sf
| one_step : forall k sf sf' sf'' sa y y' out, steps_to o sb pentol k sf sf' -> sa_pentol sa = pentol ->
    plastic_minimize_proxy sb sf' (fun h => ccg_solver o sb sf' (Some h) sa) y = (y', sf'', out) ->
    steps_to o sb pentol (S k) sf sf''.
Theorem C84_history : forall o name n m sizes sb pentol k sf sf',
  make_half_space name [n; m] sizes = Ret sb -> sf_grid sf = [n; m] -> 0 <= sf_hardness sf * sf_area sf -> 0 <= pentol ->
  steps_to o sb pentol k sf sf' ->
  forall i j, (i < n)%nat -> (j < m)%nat -> a_val (heights sf') i j <= a_val (heights sf) i j + INR k * pentol.
Proof.
  intros o name n m sizes sb pentol k sf sf' HS G PH PT ST i j Hi Hj.
  assert (A : sf_grid sf' = [n; m] /\ sf_hardness sf' = sf_hardness sf /\ sf_area sf' = sf_area sf
    /\ a_val (heights sf') i j <= a_val (heights sf) i j + INR k * pentol); [|tauto].
  induction ST as [sf|k sf sf' sf'' sa y y' out ST IH SP E].
  - repeat split; try assumption. cbn. lra.
  - destruct (IH G PH) as (G' & H' & A' & L).
    assert (K : sf_grid sf'' = sf_grid sf' /\ sf_hardness sf'' = sf_hardness sf' /\ sf_area sf'' = sf_area sf').
    { pose proof E as Q. unfold plastic_minimize_proxy in Q. destruct (minimize_proxy _ _ _) as [y1 [r1|e1]]; [|injection Q as _ <- _; auto].
      destruct (o_success r1); [|injection Q as _ <- _; auto]. destruct (compute_gap _ _ _ _); injection Q as _ <- _; auto. }
    destruct K as (K1 & K2 & K3). rewrite K1, K2, K3. split; [exact G'|]. split; [exact H'|]. split; [exact A'|].
    assert (PH' : 0 <= sf_hardness sf' * sf_area sf') by (rewrite H', A'; exact PH).
    assert (PS : 0 <= sa_pentol sa) by (rewrite SP; exact PT).
    destruct (C84_step _ _ _ _ _ _ _ _ _ _ _ _ HS G' PH' PS E i j Hi Hj) as [B _]. rewrite SP in B. rewrite S_INR. lra.
Qed.
Print Assumptions C84_history.

(** With status [cg] and [area_per_pt] of surface and substrate equal, the
    surface left behind carries the computed state elastically, points without
    pressure keep their heights and others move by more than [eps] only at the
    hardness. *)
Theorem C84_step_cg : forall o n m lx ly sb sf off pentol k y y' sf' r r',
  (2 <= n)%nat -> (2 <= m)%nat -> 0 < lx -> 0 < ly -> 0 <= pentol -> 0 < sf_hardness sf -> sf_area sf = sb_area sb ->
  make_half_space "periodic" [n; m] [lx; ly] = Ret sb -> sf_grid sf = [n; m] ->
  plastic_minimize_proxy sb sf (fun h => ccg_solver o sb sf (Some h) (mkSa (Some off) None pentol k)) y = (y', sf', Ret r) ->
  CCG_Spec.ccg (solver_cfg o sb sf (Some (sf_hardness sf * sb_area sb)) None off pentol) k = CCG_Model.Ok r' ->
  CCG_Model.x_success r' = true -> CCG_Model.x_str r' = CCG_Model.Cg ->
  CCG_Model.x_tau r' <> 0 \/ CCG_Model.x_nit r' = 1%nat ->
  let p := fun x y => a_val (o_jac r) x y / sb_area sb in
  let u := a_val (o_x r) in
  let eps := pentol * (1 + sqrt (INR (n * m))) in
  periodic_response [n; m] lx ly p u
  /\ nearly_in_contact [n; m] (a_val (heights sf')) off p u eps
  /\ forall x y, (x < n)%nat -> (y < m)%nat ->
     0 <= p x y <= sf_hardness sf
     /\ (p x y = 0 -> a_val (heights sf') x y = a_val (heights sf) x y)
     /\ (eps < Rabs (a_val (heights sf') x y - a_val (heights sf) x y) -> p x y = sf_hardness sf).
Proof.
  intros o n m lx ly sb sf off pentol k y y' sf' r r' N M X Y PT PH AR HS G E CR SU ST TA.
  assert (PA : 0 < sb_area sb).
  { destruct (half_space_cases _ _ _ _ HS) as [(_ & hs & C0 & ->)|(Q & _)]; [|discriminate]. exact (hs_area n m lx ly hs X Y C0). }
  assert (PHA : 0 <= sf_hardness sf * sf_area sf) by (rewrite AR; apply Rmult_le_pos; lra).
  destruct (step_result_object _ _ _ _ _ _ _ _ _ _ _ _ HS G PHA E) as (r2 & E2 & -> & S). cbn [sa_offset sa_force sa_pentol sa_maxiter] in E2.
  rewrite AR, CR in E2. injection E2 as <-. intros p u eps.
  assert (SO : o_success (result_object sb r') = true) by exact SU. rewrite SO in S. destruct S as [_ S].
  destruct (half_space_run o n m lx ly sb sf (sf_hardness sf) off pentol k r' N M X Y PT PH HS CR SU ST TA) as [PR V].
  fold p u eps in PR, V. split; [exact PR|].
  assert (OF : o_offset (result_object sb r') = off).
  { apply CCG_Proofs.offset_kept in CR; [exact CR|reflexivity]. }
  rewrite OF in S. fold u in S.
  assert (PE : pentol <= eps).
  { unfold eps. rewrite Rmult_plus_distr_l, Rmult_1_r. assert (0 <= pentol * sqrt (INR (n * m))) by (apply Rmult_le_pos; [exact PT|apply sqrt_pos]). lra. }
  split.
  - intros x' y0 [Hx Hy]. cbn in Hx, Hy. destruct (V x' y0 Hx Hy) as ((V1 & V2 & V3) & V4 & V5).
    change (a_val (o_jac (result_object sb r')) x' y0 / sb_area sb) with (p x' y0) in *. split; [apply V1|].
    unfold gap in *. rewrite (S x' y0 Hx Hy). destruct (o_plastic (result_object sb r') x' y0).
    + split; [lra|]. intros _. lra.
    + specialize (V5 eq_refl). split.
      * destruct (Rle_lt_or_eq_dec _ _ (proj1 V1)) as [Q|Q]; [specialize (V5 Q); apply Rabs_le_between in V5; lra|]. specialize (V2 ltac:(lra)). lra.
      * intros Q. specialize (V5 Q). apply Rabs_le_between in V5. lra.
  - intros x' y0 Hx Hy. destruct (V x' y0 Hx Hy) as ((V1 & V2 & V3) & V4 & V5).
    change (a_val (o_jac (result_object sb r')) x' y0 / sb_area sb) with (p x' y0) in *. split; [exact V1|]. rewrite (S x' y0 Hx Hy). unfold gap in *.
    destruct (o_plastic (result_object sb r') x' y0).
    + specialize (V4 eq_refl). split; [intros Q; lra|]. intros Q. destruct (Rlt_dec (p x' y0) (sf_hardness sf)) as [L|L]; [|lra]. exfalso.
      specialize (V2 L). specialize (V3 V4). replace (u x' y0 - off - a_val (heights sf) x' y0) with (u x' y0 - a_val (heights sf) x' y0 - off) in Q by ring.
      assert (Rabs (u x' y0 - a_val (heights sf) x' y0 - off) <= eps) by (apply Rabs_le; lra). lra.
    + split; [reflexivity|]. intros Q. replace (a_val (heights sf) x' y0 - a_val (heights sf) x' y0) with 0 in Q by ring. rewrite Rabs_R0 in Q. lra.
Qed.
Print Assumptions C84_step_cg.

(** A start that solves the elastic problem below the hardness is returned. *)
Theorem C84_start : forall o n m lx ly sb sf H off pentol k ps us,
  0 < lx -> 0 < ly -> 0 < H -> 0 < pentol -> 0 < op_forcetol o -> 0 < op_thermotol o -> (1 <= k)%nat ->
  make_half_space "periodic" [n; m] [lx; ly] = Ret sb ->
  in_contact [n; m] lx ly (a_val (heights sf)) off ps us ->
  (forall x y, (x < n)%nat -> (y < m)%nat -> ps x y < H /\ us x y = Rmax 0 (a_val (heights sf) x y + off)) ->
  (exists x y, (x < n)%nat /\ (y < m)%nat /\ 0 < ps x y) ->
  exists r, CCG_Spec.ccg (solver_cfg o sb sf (Some (H * sb_area sb)) None off pentol) k = CCG_Model.Ok r
  /\ CCG_Model.x_success r = true /\ CCG_Model.x_str r = CCG_Model.Cg /\ CCG_Model.x_nit r = 1%nat
  /\ forall x y, (x < n)%nat -> (y < m)%nat ->
     a_val (o_jac (result_object sb r)) x y = ps x y * sb_area sb /\ a_val (o_x (result_object sb r)) x y = us x y.
Proof.
  intros o n m lx ly sb sf H off pentol k ps us X Y PH PT T1 T2 K1 HS [PR C] L NE.
  destruct (half_space_cases _ _ _ _ HS) as [(_ & hs & C0 & ->)|(Q & _)]; [|discriminate].
  pose proof (hs_area n m lx ly hs X Y C0) as AR.
  assert (GS : sb_sub (periodic hs) = [n; m]) by exact (hs_grid _ _ C0).
  assert (PA : 0 < sb_area (periodic hs)) by exact AR.
  assert (S0 : forall i j, on_grid [n; m] i j -> us i j = Rmax 0 (a_val (heights sf) i j + off) /\ 0 <= ps i j
     /\ ps i j * (us i j - a_val (heights sf) i j - off) = 0).
  { intros i j Q. destruct (C i j Q) as (C1 & _ & C3). destruct Q as [Hi Hj]. split; [apply L; assumption|]. split; assumption. }
  destruct (start_exact o [n; m] [lx; ly] hs sf off pentol ps us C0 (positive_two _ _ X Y) eq_refl PR S0) as (EX & I1 & I2 & RR2).
  set (c := solver_cfg o (periodic hs) sf None None off pentol) in *.
  set (q := fun z : pt (sb_sub (periodic hs)) => area_per_pt (s_hs hs) * ps (px z) (py z)) in *.
  change (CCG_Model.c_disp c (fun z => - q z) = read _ us) in RR2.
  assert (T : CCG_Spec.tolerances_positive c) by (split; [exact PT|split; assumption]).
  destruct k as [|k]; [lia|].
  destruct (CCG_Returns.exact_start c q k (cfg_covers _ _ _ _ _ _ _) eq_refl T eq_refl EX I1 I2) as (r & E & SU & NI & J & XX & OF & ST).
  destruct (CCG_Results2.ex_iter c q off (cfg_covers _ _ _ _ _ _ _) eq_refl T EX (CCG_Model.init_state (CCG_Real.ROps _) c))
    as (fu & Ei & _ & Ff & _); auto.
  { intros Fx Q. discriminate Q. }
  assert (IT : forall s, CCG_Model.s_f s = (fun p => - q p) ->
    (exists p, In p (CCG_Spec.grid c) /\ CCG_Model.s_f s p < 0) /\ forall p, - (H * sb_area (periodic hs)) < CCG_Model.s_f s p).
  { intros s Es. rewrite Es. split.
    - destruct NE as (x & y & Hx & Hy & PP).
      assert (HG : (x < gx (sb_sub (periodic hs)))%nat /\ (y < gy (sb_sub (periodic hs)))%nat) by (rewrite GS; split; assumption).
      exists (at_pt (sb_sub (periodic hs)) x y HG). split; [apply cfg_covers|]. unfold q, px, py. cbn [at_pt proj1_sig fst snd].
      assert (0 < area_per_pt (s_hs hs) * ps x y) by (apply Rmult_lt_0_compat; assumption). lra.
    - intros z. assert (IN : (px z < n)%nat /\ (py z < m)%nat).
      { clear - GS. revert z. generalize GS. generalize (sb_sub (periodic hs)). intros g' -> z. exact (pt_inside [n; m] z). }
      destruct (L _ _ (proj1 IN) (proj2 IN)) as [LL _]. unfold q. change (sb_area (periodic hs)) with (area_per_pt (s_hs hs)).
      assert (area_per_pt (s_hs hs) * ps (px z) (py z) < area_per_pt (s_hs hs) * H) by (apply Rmult_lt_compat_l; assumption). lra. }
  assert (PHA : 0 < H * sb_area (periodic hs)) by (apply Rmult_lt_0_compat; assumption).
  destruct (CCG_Harden.harden_run c (H * sb_area (periodic hs)) eq_refl eq_refl PHA (S k) r E) as (_ & r' & E' & U).
  { intros j s Hj As. apply IT. rewrite NI in Hj. destruct j as [|[|j]]; [| |lia].
    - cbn [CCG_Spec.after] in As. injection As as <-. exact I1.
    - cbn [CCG_Spec.after] in As. rewrite Ei in As. injection As as <-. exact Ff. }
  exists r'. split; [exact E'|]. subst r. cbn [CCG_Harden.unmarked CCG_Model.x_success CCG_Model.x_str CCG_Model.x_nit CCG_Model.x_jac CCG_Model.x_x] in *.
  split; [exact SU|]. split; [exact ST|]. split; [exact NI|]. cbn [result_object o_jac o_x a_val]. intros i j Hi Hj.
  assert (GI' : (i < gx (sb_sub (periodic hs)))%nat /\ (j < gy (sb_sub (periodic hs)))%nat) by (rewrite GS; split; assumption).
  rewrite !(write_in _ _ _ _ _ _ GI'), J, XX. rewrite RR2. change (sb_area (periodic hs)) with (area_per_pt (s_hs hs)).
  unfold q, read, px, py. cbn [proj1_sig at_pt fst snd]. split; [ring|reflexivity].
Qed.
Print Assumptions C84_start.

(** The wave of C78 with half its peak pressure as hardness: the crest yields. *)
Definition crest_pressure : field := fun i _ => if Nat.eqb i 0 then PI / 4 else 0.
Definition crest_disp : field := fun i _ => if Nat.eqb i 0 then 1 / 4 else 0.
Lemma crest_yields : in_plastic_contact [2; 2]%nat 1 1 (PI / 4) wave_rows 0 crest_pressure crest_disp.
Proof.
  pose proof PI_RGT_0 as PP. destruct half_contact as [[H1 H2] _]. split.
  - assert (EP : forall i j, crest_pressure i j = 1 / 2 * half_pressure i j) by (intros; unfold crest_pressure, half_pressure; destruct (Nat.eqb i 0); field).
    assert (EU : forall i j, crest_disp i j = 1 / 2 * half_disp i j) by (intros; unfold crest_disp, half_disp; destruct (Nat.eqb i 0); field).
    split.
    + intros k l G Z. specialize (H1 k l G Z). cbn [gx gy nth] in *.
      rewrite (fft2_ext 2 2 crest_disp (fun i j => 1 / 2 * half_disp i j)), (fft2_ext 2 2 crest_pressure (fun i j => 1 / 2 * half_pressure i j)) by (intros; auto).
      rewrite !fft2_scal, H1. ring.
    + unfold mean, HalfSpace_Spec.total in *. cbn [gx gy nth] in *.
      rewrite (Rsum2_ext 2 2 crest_disp (fun i j => 1 / 2 * half_disp i j)), (Rsum2_ext 2 2 crest_pressure (fun i j => 1 / 2 * half_pressure i j)) by (intros; auto).
      rewrite !Rsum2_scal. lra.
  - intros i j [Hi Hj]. unfold crest_pressure, crest_disp, gap, wave_rows. cbn. destruct (Nat.eqb i 0); lra.
Qed.

(** A step that returns: the wave, hardness 3. *)
Definition hard_rows : surface :=
  mkSurface [2; 2]%nat (fun i _ => if Nat.eqb i 0 then 1 / 2 else - 1 / 2) (fun _ _ => 0) 3 (1 / 4).
Lemma periodic_step : forall o n m lx ly sb sf sa r y, (2 <= n)%nat -> (2 <= m)%nat -> 0 < lx -> 0 < ly ->
  make_half_space "periodic" [n; m] [lx; ly] = Ret sb -> sf_grid sf = [n; m] ->
  ccg_solver o sb sf (Some (sf_hardness sf * sf_area sf)) sa = Ret r ->
  exists y' sf', plastic_minimize_proxy sb sf (fun h => ccg_solver o sb sf (Some h) sa) y = (y', sf', Ret r).
Proof.
  intros o n m lx ly sb sf sa r y N M X Y HS G SV. unfold plastic_minimize_proxy, minimize_proxy, mbind, upd, lift, mret. rewrite SV.
  destruct (o_success r) eqn:SU; [|rewrite SU; eauto].
  assert (CK : sb_check sb (o_jac r) = Ret tt) by (destruct (half_space_cases _ _ _ _ HS) as [(_ & hs & _ & ->)|(Q & _)]; [reflexivity|discriminate]).
  rewrite CK, SU. destruct (solver_inv _ _ _ _ _ _ SV) as (r' & _ & ->).
  destruct (half_space_shapes _ _ _ _ HS) as (_ & _ & LL & LX & LY & PX & PY). pose proof (half_space_topo _ _ _ _ _ HS) as T. rewrite <- G in T.
  assert (CV : covers (o_x (result_object sb r')) (sf_grid sf)).
  { assert (LS : List.length (sb_sub sb) = 2%nat) by (rewrite LL; reflexivity).
    unfold covers. rewrite G. cbn [result_object o_x a_shape]. cbn [gx gy nth List.length] in *. split; [exact LS|]. exact (conj LX LY). }
  assert (OK : okgrid (sf_grid sf)) by (rewrite G; split; [right; reflexivity|exact (conj PX PY)]).
  destruct (covered_gap sb sf (o_x (result_object sb r')) (o_offset (result_object sb r')) OK T CV) as (d & -> & _). eauto.
Qed.

Example C84_nonvacuous :
  in_plastic_contact [2; 2]%nat 1 1 (PI / 4) wave_rows 0 crest_pressure crest_disp
  /\ gap wave_rows 0 crest_disp 0%nat 0%nat = - (1 / 4) /\ crest_pressure 0%nat 0%nat = PI / 4
  /\ (let c := CCG_Q.rcfg_of CCG_Witness.pts3 CCG_Spurious.crest in
      CCG_Model.c_hard c = Some (CCG_Model.HScalar (3 / 2)) /\ CCG_Spec.offset_control c /\ CCG_Model.c_pentol c = 1 / 10
      /\ exists r, CCG_Spec.ccg c 50 = CCG_Model.Ok r /\ CCG_Model.x_success r = true /\ CCG_Model.x_str r = CCG_Model.Cg /\ CCG_Model.x_tau r <> 0
         /\ CCG_Model.x_jac r CCG_Witness.A3 = 3 / 2 /\ CCG_Spec.gap c r CCG_Witness.A3 = - (7 / 8)
         /\ CCG_Model.x_jac r CCG_Witness.B3 = 5 / 4 /\ CCG_Spec.gap c r CCG_Witness.B3 = 0 /\ CCG_Model.x_jac r CCG_Witness.C3 = 0)
  /\ exists sb r y' sf' out,
      make_half_space "periodic" [2; 2]%nat [1; 1] = Ret sb /\ sf_area hard_rows = sb_area sb
      /\ CCG_Spec.ccg (solver_cfg usual sb hard_rows (Some (sf_hardness hard_rows * sb_area sb)) None 0 (1 / 100)) 100 = CCG_Model.Ok r
      /\ CCG_Model.x_success r = true /\ CCG_Model.x_str r = CCG_Model.Cg /\ CCG_Model.x_nit r = 1%nat
      /\ plastic_minimize_proxy sb hard_rows (fun h => ccg_solver usual sb hard_rows (Some h) (mkSa (Some 0) None (1 / 100) 100)) fresh
         = (y', sf', Ret out).
Proof.
  pose proof PI_RGT_0 as PP. pose proof PI_4 as P4. split; [exact crest_yields|]. split; [unfold gap, wave_rows, crest_disp; cbn; lra|].
  split; [reflexivity|]. split; [exact CCG_Spurious.crest_run|].
  destruct (half_space_ok "periodic" 2 2 1 1 (or_introl (conj eq_refl (conj (le_n 2) (le_n 2))))) as (sb & HS & _). exists sb.
  destruct (C84_start usual 2 2 1 1 sb hard_rows 3 0 (1 / 100) 100 half_pressure half_disp) as (r & E & SU & ST & NI & _); try lra; try lia; try (cbn; lra); try assumption.
  - exact half_contact.
  - intros x y Hx Hy. unfold half_pressure, half_disp. cbn. destruct (Nat.eqb x 0); [rewrite Rmax_right by lra|rewrite Rmax_left by lra]; lra.
  - exists 0%nat, 0%nat. unfold half_pressure. cbn. split; [lia|]. split; [lia|]. lra.
  - exists r.
    assert (AR : sf_area hard_rows = sb_area sb).
    { destruct (half_space_cases _ _ _ _ HS) as [(_ & hs & C0 & ->)|(Q & _)]; [|discriminate].
      cbn [sf_area hard_rows]. change (sb_area (periodic hs)) with (area_per_pt (s_hs hs)).
      rewrite (HalfSpace_Witness.point_area_eq _ _ C0). unfold point_area. cbn. lra. }
    assert (SV : ccg_solver usual sb hard_rows (Some (sf_hardness hard_rows * sf_area hard_rows)) (mkSa (Some 0) None (1 / 100) 100) = Ret (result_object sb r)).
    { rewrite solver_eq by (rewrite (proj1 (half_space_shapes _ _ _ _ HS)); right; reflexivity).
      cbn [sa_offset sa_force sa_pentol sa_maxiter]. rewrite AR. change (sf_hardness hard_rows) with 3. rewrite E. reflexivity. }
    destruct (periodic_step usual 2 2 1 1 sb hard_rows _ _ fresh (le_n 2) (le_n 2) Rlt_0_1 Rlt_0_1 HS eq_refl SV) as (y' & sf' & Q).
    exists y', sf'. eexists. split; [exact HS|]. split; [exact AR|]. split; [exact E|]. split; [exact SU|]. split; [exact ST|]. split; [exact NI|]. exact Q.
Qed.
