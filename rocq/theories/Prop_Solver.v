(** * Properties of [constrained_conjugate_gradients] (C01-C19, C68)

    Vocabulary: [CCG_Spec] (and, for C11-C14, the transformed problems at the
    top of [CCG_Invariance]).  [ccg c n] is the call with [maxiter = n],
    [run_trace] additionally lists the logger and callback invocations. *)
From Coq Require Import Reals Lra List Bool Arith Lia Permutation FunctionalExtensionality.
From Verif Require Import CCG_Model CCG_Real CCG_Spec CCG_Proofs CCG_Results CCG_Results2
  CCG_Invariance CCG_Misc CCG_Witness.
Import ListNotations.
Local Open Scope R_scope.

(** ** C01 Solver result is self-consistent *)
Theorem C01_self_consistent : forall P (c : @cfg R P) n r,
  hardness_nonneg c -> ccg c n = Ok r ->
  x_x r = c_disp c (fun p => if c_slice c p then - x_jac r p else 0) /\
  x_fun r = / 2 * lsum (filter (c_slice c) (grid c)) (fun p => x_jac r p * x_x r p).
Proof. exact (fun P c n r Hh H => proj2 (result_consistent c n r Hh H)). Qed.
Print Assumptions C01_self_consistent.
Example C01_nonvacuous : hardness_nonneg E2c /\ exists r, ccg E2c 9 = Ok r /\ x_jac r A3 = 1629/1000.
Proof.
  split. { unfold hardness_nonneg; simpl. q2r. lra. }
  destruct E2_run as (r&H&_&_&H1&_). eauto.
Qed.

(** ** C02 No force outside the topography or on masked points *)
Theorem C02_no_force_off_surface : forall P (c : @cfg R P) n evs o,
  hardness_nonneg c -> run_trace (ROps P) c n = (evs, o) ->
  (forall f, In f (callback_forces evs) -> forall p, ~ on_surface c p -> f p = 0) /\
  (forall r, o = Ok r -> forall p, ~ on_surface c p -> x_jac r p = 0).
Proof.
  exact (fun P c n evs o Hh H => conj (callback_zero c n evs o Hh H)
    (fun r E => proj1 (result_consistent c n r Hh
       (eq_trans (f_equal snd H) E)))).
Qed.
Print Assumptions C02_no_force_off_surface.
(** In [E2c] point B is masked, point C is padding. *)
Example C02_nonvacuous : ~ on_surface E2c B3 /\ ~ on_surface E2c C3 /\ on_surface E2c A3.
Proof. unfold on_surface; simpl. repeat split; intuition discriminate. Qed.

(** ** C03 Iteration and evaluation accounting *)
Theorem C03_counters : forall P (c : @cfg R P) n evs r,
  run_trace (ROps P) c n = (evs, Ok r) ->
  (1 <= x_nit r <= n)%nat /\
  length (statuses evs) = x_nit r /\ nth_error (statuses evs) (x_nit r - 1) = Some (x_str r) /\
  (x_nfev r + count_mix (statuses evs) = 1 + 2 * x_nit r)%nat /\
  ((x_success r = true /\ x_message r = PolonskyConverged /\ forced_logs evs = [LConverged] /\
      map fst (callbacks evs) = seq 1 (x_nit r - 1)) \/
   (x_success r = false /\ x_message r = ReachedMaxiter n /\ x_nit r = n /\
      forced_logs evs = [LNotConverged] /\ map fst (callbacks evs) = seq 1 n)).
Proof.
  exact (fun P c n evs r H => let K := counters c n evs r H in
    conj (proj1 K) (conj (proj1 (proj2 K)) (conj (last_status c n evs r H) (proj2 (proj2 K))))).
Qed.
Print Assumptions C03_counters.
Example C03_nonvacuous : exists evs r, run_trace (ROps bool) E1c 5 = (evs, Ok r) /\ x_nit r = 2%nat.
Proof.
  destruct E1_run as (r&H&_&_&H2&_). unfold ccg, run in H.
  destruct (run_trace (ROps bool) E1c 5) as [evs o]. simpl in H. subst. eauto.
Qed.

(** ** C04 Converged elastic result satisfies the contact constraints *)
Theorem C04_converged_constraints : forall P (c : @cfg R P) n r,
  elastic c -> (forall F, c_ext c = Some F -> 0 <= F) ->
  ccg c n = Ok r -> x_success r = true -> x_str r = Cg ->
  (forall p, In p (grid c) -> on_surface c p -> - c_pentol c < gap c r p) /\
  (forall p, 0 <= x_jac r p).
Proof.
  exact (fun P c n r He HF H Hs Hc =>
    let K := converged_elastic c n r He HF H Hs Hc in conj (proj1 K) (proj1 (proj2 K))).
Qed.
Print Assumptions C04_converged_constraints.
Example C04_nonvacuous : elastic E1c /\ (forall F, c_ext E1c = Some F -> 0 <= F) /\
  exists r, ccg E1c 5 = Ok r /\ x_success r = true /\ x_str r = Cg /\ x_jac r false = 1.
Proof.
  split; [reflexivity|]. split; [discriminate|].
  destruct E1_run as (r&H&H1&H2&H3&H4&H5&_). eauto 6.
Qed.

(** ** C05 Success implies no interpenetration beyond pentol: FALSE.
    An elastic run on a linear substrate with default start values succeeds
    although a point penetrates by more than 1500 times [pentol]; in force
    control a two-point problem with an exact solution does the same. *)
Theorem C05_no_penetration_refuted :
  ~ (forall P (c : @cfg R P) n r, elastic c -> tolerances_positive c -> ccg c n = Ok r ->
       x_success r = true -> forall p, In p (grid c) -> on_surface c p -> - c_pentol c <= gap c r p).
Proof.
  intros H. destruct W5_run as (r&Hr&Hs&_&Hg).
  assert (T : tolerances_positive W5c) by (unfold tolerances_positive; simpl; q2r; lra).
  specialize (H _ W5c _ r eq_refl T Hr Hs C3). rewrite Hg in H.
  assert (E : c_pentol W5c = 1/1000) by (simpl; q2r; lra). rewrite E in H.
  assert (- (1/1000) <= - (25/16)) by (apply H; [simpl; auto|split; reflexivity]). lra.
Qed.
Print Assumptions C05_no_penetration_refuted.
Theorem C05_force_control_refuted :
  exists r, ccg W5fc 9 = Ok r /\ x_success r = true /\ gap W5fc r true = - 1 /\ c_pentol W5fc <= 1/100 /\
    exact_solution W5fc (3/2) (fun p => if p then 1 else 2) /\ compliant (grid W5fc) (c_disp W5fc).
Proof.
  destruct W5f_run as (r&H&H1&H2&H3&H4). exists r.
  refine (conj H (conj H1 (conj H4 (conj _ (conj W5f_exact W5f_compliant))))). simpl. q2r. lra.
Qed.
Print Assumptions C05_force_control_refuted.
(** What holds: no penetration if the last iteration had status cg. *)
Theorem C05_no_penetration_partial : forall P (c : @cfg R P) n r,
  elastic c -> (forall F, c_ext c = Some F -> 0 <= F) ->
  ccg c n = Ok r -> x_success r = true -> x_str r = Cg ->
  forall p, In p (grid c) -> on_surface c p -> - c_pentol c < gap c r p.
Proof. exact (fun P c n r He HF H Hs Hc => proj1 (converged_elastic c n r He HF H Hs Hc)). Qed.
Print Assumptions C05_no_penetration_partial.

(** ** C06 Success implies no tensile force: FALSE. *)
Theorem C06_no_tension_refuted :
  ~ (forall P (c : @cfg R P) n r, elastic c -> tolerances_positive c -> offset_control c ->
       ccg c n = Ok r -> x_success r = true -> forall p, In p (grid c) -> 0 <= x_jac r p).
Proof.
  intros H. destruct W6_run as (r&Hr&Hs&Hj).
  assert (T : tolerances_positive W6c) by (unfold tolerances_positive; simpl; q2r; lra).
  specialize (H _ W6c _ r eq_refl T eq_refl Hr Hs C3). assert (0 <= x_jac r C3) by (apply H; simpl; auto). lra.
Qed.
Print Assumptions C06_no_tension_refuted.
Theorem C06_no_tension_partial : forall P (c : @cfg R P) n r,
  elastic c -> (forall F, c_ext c = Some F -> 0 <= F) ->
  ccg c n = Ok r -> x_success r = true -> x_str r = Cg -> forall p, 0 <= x_jac r p.
Proof. exact (fun P c n r He HF H Hs Hc => proj1 (proj2 (converged_elastic c n r He HF H Hs Hc))). Qed.
Print Assumptions C06_no_tension_partial.

(** ** C07 Force control delivers the requested force *)
Theorem C07_force_control : forall P (c : @cfg R P) n r F,
  c_ext c = Some F -> hardness_nonneg c -> ccg c n = Ok r -> x_success r = true ->
  total c r <> 0 /\ Rabs ((total c r - F) / total c r) < c_thermotol c.
Proof. exact (fun P c => force_control c). Qed.
Print Assumptions C07_force_control.
Theorem C07_force_exact : forall P (c : @cfg R P) n r F,
  c_ext c = Some F -> elastic c -> ccg c n = Ok r -> x_str r = Cg ->
  total c r = F \/ (forall p, on_surface c p -> x_jac r p = F / INR (c_nsurf c)).
Proof. exact (fun P c => force_control_exact c). Qed.
Print Assumptions C07_force_exact.
(** With the number of surface points that the code counts, the total is the force in both cases. *)
Theorem C07_force_total : forall P (c : @cfg R P) n r F,
  c_ext c = Some F -> elastic c -> ccg c n = Ok r -> x_str r = Cg ->
  let pts := filter (fun p => c_slice c p && negb (c_masked c p)) (grid c) in
  c_nsurf c = List.length pts -> pts <> [] -> total c r = F.
Proof.
  intros P c n r F X EL H ST pts NS NE. destruct (C07_force_exact P c n r F X EL H ST) as [T|T]; [exact T|].
  unfold total. fold pts. rewrite NS in T.
  assert (Q : forall l, (forall p, In p l -> x_jac r p = F / INR (List.length pts)) ->
    lsum l (x_jac r) = INR (List.length l) * (F / INR (List.length pts))).
  { intros l. unfold lsum. induction l as [|p l IH]; intro A; [cbn; ring|].
    cbn [map fold_right List.length]. rewrite IH by (intros; apply A; right; assumption).
    rewrite S_INR, (A p (or_introl eq_refl)). ring. }
  rewrite Q.
  - field. apply not_0_INR. destruct pts; [exfalso; apply NE; reflexivity|discriminate].
  - intros p I. apply T. apply filter_In in I. destruct I as [_ I]. apply andb_prop in I. destruct I as [I1 I2].
    split; [exact I1|]. destruct (c_masked c p); [discriminate|reflexivity].
Qed.
Print Assumptions C07_force_total.
Example C07_nonvacuous : c_ext E3c = Some 3 /\
  c_nsurf E3c = List.length (filter (fun p => c_slice E3c p && negb (c_masked E3c p)) (grid E3c)) /\
  exists r, ccg E3c 9 = Ok r /\ x_success r = true /\ x_str r = Cg /\ total E3c r = 3.
Proof.
  split. { simpl. f_equal. q2r. lra. }
  split. { reflexivity. }
  destruct E3_run as (r&H&H1&H2&H3&H4&_). exists r. repeat (split; auto).
  unfold total, lsum; simpl. lra.
Qed.

(** ** C08 Displacement control keeps the prescribed offset *)
Theorem C08_offset_kept : forall P (c : @cfg R P) n r,
  offset_control c -> ccg c n = Ok r -> x_offset r = c_offset c.
Proof. exact (fun P c => offset_kept c). Qed.
Print Assumptions C08_offset_kept.
Example C08_nonvacuous : offset_control E4c /\ c_offset E4c = 1 /\ exists r, ccg E4c 50 = Ok r.
Proof. repeat split. simpl; q2r; lra. destruct E4_run as (r&H&_). eauto. Qed.

(** ** C09 An exact solution is a fixed point *)
Theorem C09_exact_solution_fixed : forall P (c : @cfg R P) q n,
  covers c -> elastic c -> tolerances_positive c -> offset_control c ->
  exact_solution c (c_offset c) q -> c_f0 c = Some (fun p => - q p) ->
  exists r, ccg c (S n) = Ok r /\ x_success r = true /\ x_nit r = 1%nat /\
    x_jac r = q /\ x_x r = c_disp c (fun p => - q p) /\ x_offset r = c_offset c.
Proof. exact (fun P c => exact_fixed_point c). Qed.
Print Assumptions C09_exact_solution_fixed.
Theorem C09_exact_solution_fixed_force : forall P (c : @cfg R P) q off F n,
  covers c -> elastic c -> tolerances_positive c ->
  c_ext c = Some F -> (exists p, 0 < q p) ->
  lsum (filter (fun p => c_slice c p && negb (c_masked c p)) (grid c)) q = F ->
  exact_solution c off q -> c_f0 c = Some (fun p => - q p) ->
  exists r, ccg c (S n) = Ok r /\ x_success r = true /\ x_nit r = 1%nat /\
    x_jac r = q /\ x_x r = c_disp c (fun p => - q p) /\ x_offset r = off.
Proof. exact (fun P c => exact_fixed_point_force c). Qed.
Print Assumptions C09_exact_solution_fixed_force.
Example C09_nonvacuous : covers E1c /\ elastic E1c /\ tolerances_positive E1c /\ offset_control E1c /\
  exact_solution E1c (c_offset E1c) (fun p => if p then 0 else 1).
Proof.
  exact (conj E1_covers (conj E1_elastic (conj E1_tol (conj E1_offset E1_exact)))).
Qed.

(** ** C10 Out-of-contact surfaces give zero force *)
Theorem C10_no_contact : forall P (c : @cfg R P) n,
  covers c -> elastic c -> tolerances_positive c -> offset_control c ->
  c_u0 c = None -> c_f0 c = None ->
  (forall p, c_force c (fun _ => 0) p = 0) -> (forall p, c_disp c (fun _ => 0) p = 0) ->
  (forall p, on_surface c p -> c_h c p + c_offset c <= 0) ->
  exists r, ccg c (S n) = Ok r /\ x_success r = true /\ x_nit r = 1%nat /\
    (forall p, x_jac r p = 0) /\ (forall p, x_x r p = 0).
Proof. exact (fun P c => no_contact c). Qed.
Print Assumptions C10_no_contact.
Example C10_nonvacuous : let c := raise_surface (-2) E1c in
  (forall p, on_surface c p -> c_h c p + (c_offset c - 2) <= 0) /\
  (forall p, c_force c (fun _ => 0) p = 0) /\ (forall p, c_disp c (fun _ => 0) p = 0) /\
  c_h c true <> c_h c false.
Proof.
  simpl. unfold CCG_Hom.lift, v2, CCG_Q.rmatvec; simpl. repeat split; intros; try destruct p; q2r; lra.
Qed.

(** ** C11 Only the sum of heights and offset matters *)
Theorem C11_height_reference : forall P (c : @cfg R P) n d,
  offset_control c ->
  ccg (raise_surface d c) n = map_outcome (lower_offset d) (ccg c n).
Proof. exact (fun P c n d => raise_surface_run d c n). Qed.
Print Assumptions C11_height_reference.
Example C11_nonvacuous : offset_control E1c /\ exists r, ccg (raise_surface 7 E1c) 5 = Ok r /\ x_offset r = - 7.
Proof.
  split; [reflexivity|]. rewrite C11_height_reference by reflexivity.
  destruct E1_run as (r&H&_). rewrite H. eexists; split; [reflexivity|]. simpl.
  rewrite (C08_offset_kept _ _ _ _ E1_offset H). simpl. q2r. lra.
Qed.

(** ** C12 Result does not depend on the MPI decomposition *)
Theorem C12_decomposition : forall P (c : @cfg R P) n rk,
  Permutation (concat rk) (grid c) ->
  run_trace (ROps P) (redistribute rk c) n = run_trace (ROps P) c n.
Proof. exact (fun P c n rk H => redistribute_trace rk c H n). Qed.
Print Assumptions C12_decomposition.
Example C12_nonvacuous : c_ranks E1c = [[false; true]] /\ Permutation (concat [[true]; []; [false]]) (grid E1c).
Proof. split; [reflexivity|]. simpl. apply perm_swap. Qed.

(** ** C13 Unit independence *)
Theorem C13_units : forall P (c : @cfg R P) n a b,
  0 < a -> 0 < b -> linear (c_disp c) ->
  ccg (in_units a b c) n = map_outcome (result_in_units a b) (ccg c n).
Proof. exact (fun P c n a b => in_units_run a b c n). Qed.
Print Assumptions C13_units.
Example C13_nonvacuous : linear (c_disp E1c) /\ exists r, ccg (in_units 1000 5 E1c) 5 = Ok r /\ x_jac r false = 5.
Proof.
  split; [apply E1_linear|]. rewrite C13_units; try lra; [|apply E1_linear].
  destruct E1_run as (r&H&_&_&_&_&Hj&_). rewrite H. eexists; split; [reflexivity|]. simpl. rewrite Hj. lra.
Qed.

(** ** C14 Symmetry of surface and substrate is inherited by the solution *)
Theorem C14_relabel : forall P (c : @cfg R P) n pi,
  Permutation (map pi (grid c)) (grid c) ->
  (forall f p, c_disp c (fun q => f (pi q)) p = c_disp c f (pi p)) ->
  (forall u p, c_force c (fun q => u (pi q)) p = c_force c u (pi p)) ->
  ccg (relabel pi c) n = map_outcome (relabel_result pi) (ccg c n).
Proof. exact (fun P c n pi => relabel_run pi c n). Qed.
Print Assumptions C14_relabel.
Theorem C14_symmetric : forall P (c : @cfg R P) n pi r,
  Permutation (map pi (grid c)) (grid c) ->
  (forall f p, c_disp c (fun q => f (pi q)) p = c_disp c f (pi p)) ->
  (forall u p, c_force c (fun q => u (pi q)) p = c_force c u (pi p)) ->
  relabel pi c = c -> ccg c n = Ok r ->
  forall p, x_jac r (pi p) = x_jac r p /\ x_x r (pi p) = x_x r p /\ x_active r (pi p) = x_active r p.
Proof. exact (fun P c n pi r => symmetric_run pi c n r). Qed.
Print Assumptions C14_symmetric.
Example C14_nonvacuous :
  Permutation (map negb (grid E1c)) (grid E1c) /\
  (forall f p, c_disp E1c (fun q => f (negb q)) p = c_disp E1c f (negb p)) /\
  (forall f p, c_force E1c (fun q => f (negb q)) p = c_force E1c f (negb p)) /\
  c_h (relabel negb E1c) true = 1 /\ c_h E1c true = -1.
Proof.
  unfold E1c, CCG_Q.rcfg_of, CCG_Q.rmatvec, E1, CCG_Hom.lift, m2, v2; simpl.
  repeat split; [apply perm_swap|intros f []; simpl; lra|intros f []; simpl; lra|q2r; lra|q2r; lra].
Qed.

(** ** C15 Plastic forces never exceed the hardness: FALSE in general
    (last iteration with status sd), true otherwise in displacement control. *)
Theorem C15_hardness_bound_refuted :
  ~ (forall P (c : @cfg R P) n r H, c_hard c = Some (HScalar H) -> 0 < H -> tolerances_positive c ->
       offset_control c -> ccg c n = Ok r -> x_success r = true -> forall p, In p (grid c) -> x_jac r p <= H).
Proof.
  intros H. destruct W15_run as (r&Hr&Hs&Hh&Hj).
  assert (T : tolerances_positive W15c) by (unfold tolerances_positive; simpl; q2r; lra).
  assert (x_jac r A3 <= 1/4) by (apply (H _ W15c _ r (1/4) Hh ltac:(lra) T eq_refl Hr Hs A3); simpl; auto). lra.
Qed.
Print Assumptions C15_hardness_bound_refuted.
Theorem C15_hardness_bound_partial : forall P (c : @cfg R P) n r H,
  c_hard c = Some (HScalar H) -> 0 <= H -> offset_control c ->
  ccg c n = Ok r -> x_str r <> Sd -> forall p, 0 <= x_jac r p <= H.
Proof. exact (fun P c => plastic_bounds c). Qed.
Print Assumptions C15_hardness_bound_partial.
Example C15_nonvacuous : c_hard E4c = Some (HScalar (1/10)) /\
  exists r, ccg E4c 50 = Ok r /\ x_str r = Mix /\ x_jac r false = 1/10.
Proof. split; [reflexivity|]. destruct E4_run as (r&H&H1&H2&_&H3&_). eauto. Qed.

(** ** C16 Mixing steps come in blocks *)
Theorem C16_elastic_never_mixes : forall P (c : @cfg R P) n evs r,
  elastic c -> run_trace (ROps P) c n = (evs, Ok r) -> ~ In Mix (statuses evs).
Proof. exact (fun P c => elastic_never_mixes c). Qed.
Print Assumptions C16_elastic_never_mixes.
Theorem C16_mixing_blocks : forall P (c : @cfg R P) n evs r i j,
  run_trace (ROps P) c n = (evs, Ok r) ->
  nth_error (statuses evs) i = Some Mix ->
  (i = O \/ nth_error (statuses evs) (i - 1) <> Some Mix) ->
  (i <= j < i + c_minmix c)%nat -> (j < length (statuses evs))%nat ->
  nth_error (statuses evs) j = Some Mix.
Proof. exact (fun P c => mix_blocks c). Qed.
Print Assumptions C16_mixing_blocks.
Example C16_nonvacuous : exists evs r, run_trace (ROps bool) E4c 50 = (evs, Ok r) /\
  nth_error (statuses evs) 1 = Some Mix /\ c_minmix E4c = 10%nat.
Proof.
  destruct E4_run as (r&H&Hs&H2&H3&_). unfold ccg, run in H.
  destruct (run_trace (ROps bool) E4c 50) as [evs o] eqn:E. simpl in H. subst o. exists evs, r.
  split; auto. split; auto. rewrite <- H2. replace 1%nat with (x_nit r - 1)%nat by (rewrite H3; reflexivity). exact (last_status E4c 50 evs r E).
Qed.

(** ** C17 Every Polonsky-Keer step is an exact line search.
    [after c k] is the solver state after [k] iterations, [h] the step the next
    iteration takes from it. *)
Theorem C17_line_search : forall P (c : @cfg R P) k s,
  hardness_nonneg c -> offset_control c ->
  linear (c_disp c) -> self_adjoint (grid c) (c_disp c) -> compliant (grid c) (c_disp c) ->
  after c k = Ok s -> (1 <= k)%nat ->
  let h := cg_half (ROps P) c s in
  forall tau', complementary_energy c (s_off s) (h_f h) <=
    complementary_energy c (s_off s) (fun p => s_f s p + tau' * h_t h p).
Proof. exact (fun P c => line_search c). Qed.
Print Assumptions C17_line_search.
Example C17_nonvacuous : hardness_nonneg E1c /\ offset_control E1c /\ linear (c_disp E1c) /\
  self_adjoint (grid E1c) (c_disp E1c) /\ compliant (grid E1c) (c_disp E1c) /\ exists s, after E1c 1 = Ok s.
Proof.
  refine (conj I (conj eq_refl (conj E1_linear (conj E1_self_adjoint (conj E1_compliant _))))).
  simpl. unfold iter, first_half. simpl. unfold second_half, max_pres. simpl. eauto.
Qed.

(** ** C18 Accuracy of a converged solution *)
Theorem C18_accuracy_partial : forall P (c : @cfg R P) n r q,
  covers c -> elastic c -> offset_control c -> linear (c_disp c) ->
  ccg c n = Ok r -> x_success r = true -> x_str r = Cg ->
  x_tau r <> 0 \/ (x_nit r = 1%nat /\ compliant (grid c) (c_disp c)) ->
  exact_solution c (c_offset c) q ->
  - lsum (grid c) (fun p => (x_jac r p - q p) * c_disp c (fun p => x_jac r p - q p) p)
  <= c_pentol c * (1 + sqrt (INR (n_active c r))) * total c r
     + c_pentol c * lsum (grid c) q.
Proof. exact (fun P c => accuracy c). Qed.
Print Assumptions C18_accuracy_partial.
Example C18_nonvacuous : covers E1c /\ elastic E1c /\ offset_control E1c /\ linear (c_disp E1c) /\
  exact_solution E1c (c_offset E1c) (fun p => if p then 0 else 1) /\
  exists r, ccg E1c 5 = Ok r /\ x_success r = true /\ x_str r = Cg /\ x_tau r <> 0.
Proof.
  refine (conj E1_covers (conj E1_elastic (conj E1_offset (conj E1_linear (conj E1_exact _))))).
  destruct E1_run as (r&H&H1&H2&H3&H4&_). exists r. repeat (split; auto). lra.
Qed.
(** The restriction on [tau] (reported in the verbose log) cannot be dropped:
    with a zero step length the solver stops at a state that is not a solution. *)
Theorem C18_accuracy_refuted :
  exists r q, covers W4c /\ elastic W4c /\ offset_control W4c /\ linear (c_disp W4c) /\
    self_adjoint (grid W4c) (c_disp W4c) /\ compliant (grid W4c) (c_disp W4c) /\
    ccg W4c 9 = Ok r /\ x_success r = true /\ x_str r = Cg /\ exact_solution W4c (c_offset W4c) q /\
    c_pentol W4c * (1 + sqrt (INR (n_active W4c r))) * total W4c r + c_pentol W4c * lsum (grid W4c) q
    < - lsum (grid W4c) (fun p => (x_jac r p - q p) * c_disp W4c (fun p => x_jac r p - q p) p).
Proof.
  destruct W4_run as (r&H&H1&H2&H3&H4&H5&H6&H7&H8). exists r, (fun p : bool => if p then 0 else 3).
  repeat (split; [first [assumption | reflexivity | apply W4_exact | apply W4_compliant | apply W4_self_adjoint
    | apply CCG_Q.rmatvec_linear | (intros []; simpl; auto)]|]).
  rewrite H6. assert (E : c_pentol W4c = 1/1000) by (simpl; q2r; lra). rewrite E.
  unfold total, lsum, grid, W4c, CCG_Q.rcfg_of, CCG_Q.rmatvec, W4, m2; simpl. rewrite H3, H8. q2r. lra.
Qed.
Print Assumptions C18_accuracy_refuted.

(** ** C19 Degenerate solver inputs fail loudly *)
Theorem C19_no_iterations : forall P (a : args R P) k hsum n,
  a_maxiter a = Some O -> exists e, solve (ROps P) a k hsum n = Raise e.
Proof. exact (fun P => zero_iterations (P:=P)). Qed.
Print Assumptions C19_no_iterations.
Theorem C19_hardness_array : forall P (c : @cfg R P) H n,
  c_hard c = Some (HArray H) ->
  ccg c (S n) = Raise ValueError \/ (ccg c (S n) = Raise TypeError /\ exists F, c_ext c = Some F).
Proof.
  intros P c H n Hh. unfold ccg, run, run_trace. cbn [loop]. unfold iter, first_half. rewrite Hh.
  assert (S2 : forall s h, second_half (ROps P) c s h = Raise ValueError).
  { intros s h. unfold second_half, max_pres. rewrite Hh. reflexivity. }
  destruct (do_cg (ROps P) c _).
  - rewrite S2. left. reflexivity.
  - unfold mix_half. destruct (c_ext c) as [F|].
    + right. split; [reflexivity|]. exists F. reflexivity.
    + cbv zeta. rewrite S2. left. reflexivity.
Qed.
Print Assumptions C19_hardness_array.
Theorem C19_flat_without_offset : forall P (a : args R P) k hsum n,
  a_distributed a && a_plain_array a = false ->
  a_offset a = None -> a_pentol a = None -> a_rms a = 0 ->
  solve (ROps P) a k hsum n = Raise TypeError.
Proof. exact (fun P => flat_force_control (P:=P)). Qed.
Print Assumptions C19_flat_without_offset.
Example C19_nonvacuous : exists a : args R bool, a_maxiter a = Some O /\ a_offset a = None /\
  a_pentol a = None /\ a_rms a = 0 /\ a_distributed a && a_plain_array a = false.
Proof. exists (mkArgs R bool false true 2%nat None None 0 4 (Some O)). auto. Qed.

(** ** C68 Loaded points touch the surface *)
Theorem C68_complementarity_partial : forall P (c : @cfg R P) n r,
  elastic c -> (forall F, c_ext c = Some F -> 0 <= F) ->
  ccg c n = Ok r -> x_success r = true -> x_str r = Cg ->
  (forall p, x_active r p = false -> x_jac r p = 0 \/
     (exists F, c_ext c = Some F /\ forall q, on_surface c q -> x_jac r q = F / INR (c_nsurf c))) /\
  (x_tau r <> 0 \/ (x_nit r = 1%nat /\ compliant (grid c) (c_disp c)) ->
   forall p, In p (grid c) -> on_surface c p -> x_active r p = true ->
     Rabs (gap c r p) < c_pentol c * (1 + sqrt (INR (n_active c r)))).
Proof. exact (fun P c n r He HF H Hs Hc => proj2 (proj2 (converged_elastic c n r He HF H Hs Hc))). Qed.
Print Assumptions C68_complementarity_partial.
Theorem C68_complementarity_refuted :
  exists r, elastic W4c /\ compliant (grid W4c) (c_disp W4c) /\ ccg W4c 9 = Ok r /\ x_success r = true /\
    x_str r = Cg /\ x_jac r false = 5 /\ x_active r false = true /\
    1000 * (c_pentol W4c * (1 + sqrt (INR (n_active W4c r)))) = gap W4c r false.
Proof.
  destruct W4_run as (r&H&H1&H2&H3&H4&H5&H6&H7&H8). exists r.
  repeat (split; [first [assumption | reflexivity | apply W4_compliant]|]). rewrite H6, H5. lra.
Qed.
Print Assumptions C68_complementarity_refuted.

(** ** C69 Zero force is only accepted in the first iteration *)
Theorem C69_zero_force_not_accepted_later : forall P (c : @cfg R P) n r,
  offset_control c -> ccg c n = Ok r -> (2 <= x_nit r)%nat -> x_success r = true -> total c r <> 0.
Proof. exact (fun P => zero_force_never_converges (P:=P)). Qed.
Print Assumptions C69_zero_force_not_accepted_later.
Example C69_nonvacuous : offset_control E1c /\
  exists r, ccg E1c 5 = Ok r /\ x_nit r = 2%nat /\ x_success r = true.
Proof. split; [reflexivity|]. destruct E1_run as (r&H&H1&_&H2&_). eauto. Qed.
