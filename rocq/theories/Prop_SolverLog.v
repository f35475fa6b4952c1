(** * C86: the log of a solver run

    What [constrained_conjugate_gradients(..., logger=Logger(...))] writes. *)
From Coq Require Import Reals ZArith QArith Qreals Lra Lia List Arith Bool Ascii String.
From Verif Require Import Py Logger_Model Logger_Spec Logger_Files Logger_Proofs CCG_Model CCG_Real CCG_Spec CCG_Proofs
  CCG_Results CCG_Hom CCG_Q CCG_Witness SolverLog_Model SolverLog_Spec SolverLog_Proofs SolverLog_Exec Prop_Logger.
From Coq Require Import List.
Import ListNotations.
Local Open Scope string_scope.
Local Open Scope list_scope.
Local Open Scope R_scope.

(** For all inputs, a run that returns makes one status call per iteration. Call
    number [i] shows the iteration, the kind of step, the load that belongs to
    the forces after the step, and only the last one is forced and says whether
    the run converged; it also shows the offset that is returned. *)
Theorem C86_rows : forall P (c : @cfg R P) verbose n pt evs r, run_trace (ROps P) c n = (evs, Ok r) ->
  let calls := status_calls (solver_requests c verbose n pt evs) in
  List.length calls = x_nit r /\ (0 < x_nit r)%nat /\
  forall i k, nth_error calls i = Some k ->
    column "it" k = Some (Scal (SInt (Z.of_nat (S i)))) /\
    column "total force" k = Some (real (load c (force_after evs r i))) /\
    (S i = x_nit r -> Logger_Model.c_force k = true /\ column "offset" k = Some (real (x_offset r)) /\
       load c (force_after evs r i) = total c r /\
       column "status" k = Some (Scal (SStr (tx (if x_success r then "CONVERGED" else "NOT CONVERGED"))))) /\
    (S i <> x_nit r -> Logger_Model.c_force k = false /\
       exists s, nth_error (statuses evs) i = Some s /\ column "status" k = Some (Scal (SStr (tx (kind_word s))))).
Proof.
  intros P c verbose n pt evs r H calls. destruct (run_rows c n evs r H) as (l'&fu&Hch&Hn&Hl&Hst&Hf&XJ&Xo&_&_&Xs&_).
  assert (EC : calls = map (call_of c verbose) (map quiet l' ++ [(final_label (x_success r), true, fu_rep fu)])).
  { unfold calls. rewrite solver_calls, Hl. reflexivity. }
  rewrite EC. split. { rewrite map_length, app_length, map_length, Hn. cbn. lia. }
  split; [rewrite Hn; lia|]. intros i k E. rewrite nth_error_map in E.
  destruct (nth_error (map quiet l' ++ [(final_label (x_success r), true, fu_rep fu)]) i) as [x|] eqn:EX; [|discriminate].
  injection E as <-.
  assert (F : exists f, nth_error (l' ++ [fu]) i = Some f /\ snd x = fu_rep f /\
     ((i = List.length l' /\ f = fu /\ x = (final_label (x_success r), true, fu_rep fu)) \/
      ((i < List.length l')%nat /\ x = quiet f))).
  { destruct (Nat.lt_trichotomy i (List.length l')) as [I|[I|I]].
    - rewrite nth_error_app1 in EX by (rewrite map_length; exact I). rewrite nth_error_map in EX.
      rewrite nth_error_app1 by exact I. destruct (nth_error l' i) as [f|]; [|discriminate].
      assert (x = quiet f) by (cbn [option_map] in EX; congruence). subst x. exists f. split; [reflexivity|]. split; [reflexivity|]. right. auto.
    - subst i. rewrite nth_error_app2, map_length, Nat.sub_diag in EX by (rewrite map_length; lia). injection EX as <-.
      rewrite nth_error_app2, Nat.sub_diag by lia. exists fu. split; [reflexivity|]. split; [reflexivity|]. left. auto.
    - assert (nth_error (map quiet l' ++ [(final_label (x_success r), true, fu_rep fu)]) i = None)
        by (apply nth_error_None; rewrite app_length, map_length; cbn; lia). congruence. }
  destruct F as (f&Ef&Sx&Dx). destruct (chain_nth c _ _ _ _ Hch Ef) as (s&I1&I2&_).
  pose proof (iter_report c s f I1) as R. cbv zeta in R. destruct R as (R1&R2&_&_&R5&R6&_).
  assert (LD : r_total (fu_rep f) = load c (force_after evs r i)).
  { rewrite R5. unfold load. apply lsum_ext. intros p _. rewrite (Hf i f Ef). reflexivity. }
  split. { rewrite col_it, Sx, R1, I2. reflexivity. }
  split. { rewrite col_total, Sx, LD. reflexivity. }
  destruct Dx as [(Ei&->&->)|(Ei&->)].
  - split; [|intros X; exfalso; apply X; lia]. intros _. split; [reflexivity|].
    split. { rewrite col_offset. cbn [snd]. rewrite R6, Xo. reflexivity. }
    split. { rewrite <- LD, R5. unfold load, total, surface_list. apply lsum_ext. intros p _. rewrite XJ. reflexivity. }
    rewrite col_status. cbn [fst]. destruct (x_success r); reflexivity.
  - split; [intros X; exfalso; lia|]. intros _. split; [reflexivity|]. exists (r_str (fu_rep f)).
    split. { rewrite Hst, nth_error_map, Ef. reflexivity. } rewrite col_status. cbn [quiet fst label_word]. rewrite R2. destruct (s_str (fu_state f)); reflexivity.
Qed.
Print Assumptions C86_rows.

(** A run that ends with an exception has made one unforced status call for
    every iteration that the callback was told about. *)
Theorem C86_exception : forall P (c : @cfg R P) verbose n pt evs e, run_trace (ROps P) c n = (evs, Raise e) ->
  let calls := status_calls (solver_requests c verbose n pt evs) in
  List.length calls = List.length (callback_forces evs) /\
  forall i k, nth_error calls i = Some k ->
    Logger_Model.c_force k = false /\ column "it" k = Some (Scal (SInt (Z.of_nat (S i)))) /\
    exists s f, nth_error (statuses evs) i = Some s /\ nth_error (callback_forces evs) i = Some f /\
      column "status" k = Some (Scal (SStr (tx (kind_word s)))) /\ column "total force" k = Some (real (load c f)).
Proof.
  intros P c verbose n pt evs e H calls. unfold run_trace in H.
  destruct (loop_logs c n n (init_state (ROps P) c) None evs (Raise e) eq_refl H) as (l&Hch&_&Hcf&Hst&Hl&Hc).
  assert (EC : calls = map (call_of c verbose) (map quiet l)) by (unfold calls; rewrite solver_calls, Hl; reflexivity).
  rewrite (nonconv_all l Hc) in Hcf. rewrite EC. split; [rewrite Hcf, !map_length; reflexivity|].
  intros i k E. rewrite !nth_error_map in E. destruct (nth_error l i) as [f|] eqn:Ef; [|discriminate]. injection E as <-.
  destruct (chain_nth c _ _ _ _ Hch Ef) as (s&I1&I2&_).
  pose proof (iter_report c s f I1) as R. cbv zeta in R. destruct R as (R1&R2&_&_&R5&_).
  split; [reflexivity|]. split. { rewrite col_it. cbn [quiet snd]. rewrite R1, I2. reflexivity. }
  exists (r_str (fu_rep f)), (s_f (fu_state f)). rewrite Hst, Hcf, !nth_error_map, Ef. split; [reflexivity|]. split; [reflexivity|].
  split. { rewrite col_status. cbn [quiet fst label_word]. rewrite R2. destruct (s_str (fu_state f)); reflexivity. }
  rewrite col_total. cbn [quiet snd]. rewrite R5. reflexivity.
Qed.
Print Assumptions C86_exception.

(** Areas: call number [i] counts the points under compression before the step,
    of which [cg area] are below the hardness. *)
Theorem C86_area : forall P (c : @cfg R P) verbose n pt evs r, hardness_nonneg c -> run_trace (ROps P) c n = (evs, Ok r) ->
  forall i k, nth_error (status_calls (solver_requests c verbose n pt evs)) i = Some k ->
  let a := pressed c (force_before c evs r i) in let m := List.length (surface_list c) in
  column "area" k = Some (int_real a) /\ column "frac. area" k = Some (real (INR a / INR m)) /\ (a <= m)%nat /\
  (c_hard c = None -> column "cg area" k = Some (int_real a)) /\
  (forall H, c_hard c = Some (HScalar H) -> column "cg area" k = Some (int_real (yielding_not c H (force_before c evs r i)))).
Proof.
  intros P c verbose n pt evs r Hh H i k E. cbv zeta.
  destruct (run_rows c n evs r H) as (l'&fu&Hch&Hn&Hl&_&Hf&_).
  rewrite solver_calls, Hl, nth_error_map in E.
  destruct (nth_error (map quiet l' ++ [(final_label (x_success r), true, fu_rep fu)]) i) as [x|] eqn:EX; [|discriminate].
  injection E as <-.
  assert (F : exists f, nth_error (l' ++ [fu]) i = Some f /\ snd x = fu_rep f).
  { destruct (Nat.lt_trichotomy i (List.length l')) as [I|[I|I]].
    - rewrite nth_error_app1 in EX by (rewrite map_length; exact I). rewrite nth_error_map in EX.
      rewrite nth_error_app1 by exact I. destruct (nth_error l' i) as [f|]; [|discriminate].
      assert (x = quiet f) by (cbn [option_map] in EX; congruence). subst x. exists f. split; reflexivity.
    - subst i. rewrite nth_error_app2, map_length, Nat.sub_diag in EX by (rewrite map_length; lia). injection EX as <-.
      rewrite nth_error_app2, Nat.sub_diag by lia. exists fu. split; reflexivity.
    - assert (nth_error (map quiet l' ++ [(final_label (x_success r), true, fu_rep fu)]) i = None)
        by (apply nth_error_None; rewrite app_length, map_length; cbn; lia). congruence. }
  destruct F as (f&Ef&Sx). destruct (chain_nth c _ _ _ _ Hch Ef) as (s&I1&_&I3).
  pose proof (iter_report c s f I1) as R. cbv zeta in R. destruct R as (_&_&R3&R4&_).
  assert (PI : pad_inv c s /\ forall p, comp c p = true -> s_f s p = force_before c evs r i p).
  { destruct i as [|j]; cbn [force_before].
    - subst s. split; [apply pad_inv_init|]. intros p Cp. apply init_start. exact Cp.
    - destruct I3 as (fj&Ej&->). split; [exact (chain_pad c Hh _ _ _ _ (pad_inv_init c) Hch Ej)|].
      intros p _. symmetry. apply Hf. exact Ej. }
  destruct PI as [PI PF].
  rewrite col_area, col_frac, col_cg, Sx, R3, R4, (area_ok c s evs r i PI PF), surface_pts_length.
  split; [reflexivity|]. split; [reflexivity|]. split; [apply count_le|].
  pose proof (cg_area_ok c s evs r i PI PF) as CG.
  split; [intros E; rewrite E in CG|intros H0 E; rewrite E in CG]; rewrite CG; reflexivity.
Qed.
Print Assumptions C86_area.

(** With a hardness and at a given offset, the plastic area is the number of
    points at the hardness after the step, except after a step of kind [sd]. *)
Theorem C86_plastic_area : forall P (c : @cfg R P) verbose n pt evs r H, c_hard c = Some (HScalar H) -> 0 < H -> c_ext c = None ->
  run_trace (ROps P) c n = (evs, Ok r) ->
  forall i k s, nth_error (status_calls (solver_requests c verbose n pt evs)) i = Some k ->
  nth_error (statuses evs) i = Some s -> s <> Sd ->
  column "plast. area" k = Some (int_real (at_hardness c H (force_after evs r i))).
Proof.
  intros P c verbose n pt evs r H Hc Hp Ex Ht i k st E Es St.
  assert (Hh : hardness_nonneg c) by (unfold hardness_nonneg; rewrite Hc; lra).
  destruct (run_rows c n evs r Ht) as (l'&fu&Hch&Hn&Hl&Hst&Hf&_).
  rewrite solver_calls, Hl, nth_error_map in E.
  destruct (nth_error (map quiet l' ++ [(final_label (x_success r), true, fu_rep fu)]) i) as [x|] eqn:EX; [|discriminate].
  injection E as <-.
  assert (F : exists f, nth_error (l' ++ [fu]) i = Some f /\ snd x = fu_rep f).
  { destruct (Nat.lt_trichotomy i (List.length l')) as [I|[I|I]].
    - rewrite nth_error_app1 in EX by (rewrite map_length; exact I). rewrite nth_error_map in EX.
      rewrite nth_error_app1 by exact I. destruct (nth_error l' i) as [f|]; [|discriminate].
      assert (x = quiet f) by (cbn [option_map] in EX; congruence). subst x. exists f. split; reflexivity.
    - subst i. rewrite nth_error_app2, map_length, Nat.sub_diag in EX by (rewrite map_length; lia). injection EX as <-.
      rewrite nth_error_app2, Nat.sub_diag by lia. exists fu. split; reflexivity.
    - assert (nth_error (map quiet l' ++ [(final_label (x_success r), true, fu_rep fu)]) i = None)
        by (apply nth_error_None; rewrite app_length, map_length; cbn; lia). congruence. }
  destruct F as (f&Ef&Sx). destruct (chain_nth c _ _ _ _ Hch Ef) as (s&I1&_&I3).
  pose proof (iter_report c s f I1) as R. cbv zeta in R. destruct R as (_&R2&_&_&_&_&_&_&R9&_).
  assert (PI : pad_inv c s).
  { destruct i as [|j]; [subst s; apply pad_inv_init|].
    destruct I3 as (fj&Ej&->). exact (chain_pad c Hh _ _ _ _ (pad_inv_init c) Hch Ej). }
  rewrite Hst, nth_error_map, Ef in Es. injection Es as Es. rewrite <- Es, R2 in St.
  assert (HT : hardness_true c = true).
  { unfold hardness_true. rewrite Hc. cbn. apply negb_true_iff, Reqb_false. lra. }
  rewrite (col_plast c verbose x HT), Sx, R9.
  rewrite (flow_ok c s f H I1 Hc Hp PI Ex St (force_after evs r i)); [reflexivity|].
  intros p. symmetry. apply Hf. exact Ef.
Qed.
Print Assumptions C86_plastic_area.

(** The last line of a converged run in a detailed log shows values below the
    tolerances, and those of the result. *)
Theorem C86_converged_row : forall P (c : @cfg R P) n pt evs r, run_trace (ROps P) c n = (evs, Ok r) -> x_success r = true ->
  exists calls k du pad, status_calls (solver_requests c true n pt evs) = calls ++ [k] /\
    column "max. force" k = Some (real (x_maxpres r)) /\ x_maxpres r < c_forcetol c /\
    column "max. pad force" k = Some (real pad) /\ pad < c_forcetol c /\
    column "max. du" k = Some du /\ (du = Scal (SStr (tx "-inf")) \/ exists x, du = real x /\ x < c_pentol c) /\
    column "max. pen." k = Some (real (x_maxpen r)) /\
    (x_str r <> Mix -> x_maxpen r < c_pentol c /\
       exists rms, column "rms pen." k = Some (real rms) /\ 0 <= rms < c_pentol c /\
       column "tau" k = Some (real (x_tau r))).
Proof.
  intros P c n pt evs r H S. destruct (run_rows c n evs r H) as (l'&fu&Hch&Hn&Hl&_&_&_&_&Xp&Xm&Xs&Xc&Xt).
  set (x := (final_label (x_success r), true, fu_rep fu)) in *.
  assert (Ef : nth_error (l' ++ [fu]) (List.length l') = Some fu) by (rewrite nth_error_app2, Nat.sub_diag by lia; reflexivity).
  destruct (chain_nth c _ _ _ _ Hch Ef) as (s&I1&_).
  rewrite S in Xc. symmetry in Xc. pose proof (conv_report c s fu I1 Xc) as R. cbv zeta in R. destruct R as (A1&A2&A3&A4).
  pose proof (iter_report c s fu I1) as R. cbv zeta in R. destruct R as (_&R2&_&_&_&_&R7&_).
  exists (map (call_of c true) (map quiet l')), (call_of c true x),
    (match r_maxdu (fu_rep fu) with Some y => real y | None => Scal (SStr (tx "-inf")) end), (r_padpres (fu_rep fu)).
  split. { rewrite solver_calls, Hl, map_app. reflexivity. }
  rewrite col_force, col_pad, col_du, col_pen by reflexivity. cbn [x snd]. rewrite Xm, Xp.
  split; [reflexivity|]. split; [exact A1|]. split; [reflexivity|]. split; [exact A2|]. split; [reflexivity|].
  split. { destruct (r_maxdu (fu_rep fu)) as [y|]; [right; exists y; auto|left; reflexivity]. }
  split; [reflexivity|]. intros M. rewrite Xs, <- R2 in M. destruct (A4 M) as [A5 A6]. split; [exact A6|].
  exists (sqrt (r_ms (fu_rep fu))). rewrite col_rms by reflexivity. split; [reflexivity|]. split; [split; [apply sqrt_pos|exact A5]|].
  rewrite col_tau; [cbn [x snd]; rewrite R7, Xt; reflexivity|reflexivity|]. cbn [x snd]. destruct (r_str (fu_rep fu)); try reflexivity. contradiction.
Qed.
Print Assumptions C86_converged_row.

(** With a logger that prints every [oe]-th call, the lines are those of the
    iterations [oe], [2 oe], ... and of the last one. *)
Theorem C86_printed : forall P (c : @cfg R P) verbose n pt evs r oe, (1 <= oe)%Z -> run_trace (ROps P) c n = (evs, Ok r) ->
  map (column "it") (printed oe 0 (solver_requests c verbose n pt evs))
  = map (fun i => Some (Scal (SInt (Z.of_nat i)))) (filter (iteration_due oe (x_nit r)) (seq 1 (x_nit r))).
Proof.
  intros P c verbose n pt evs r oe O H. destruct (run_rows c n evs r H) as (l'&fu&Hch&Hn&Hl&_).
  unfold solver_requests. rewrite requests_calls, Hl. cbn [printed]. rewrite map_app, printed_app, map_app, map_length.
  assert (IT : forall i f, nth_error (l' ++ [fu]) i = Some f -> r_it (fu_rep f) = S i).
  { intros i f E. destruct (chain_nth c _ _ _ _ Hch E) as (s&I1&I2&_).
    pose proof (iter_report c s f I1) as R. cbv zeta in R. rewrite (proj1 R), I2. reflexivity. }
  assert (SQ : map (fun f => r_it (fu_rep f)) l' = seq 1 (List.length l')).
  { apply nth_ext with (d := 0%nat) (d' := 0%nat); [rewrite map_length, seq_length; reflexivity|].
    intros i I. rewrite map_length in I. rewrite seq_nth by exact I.
    rewrite nth_indep with (d' := r_it (fu_rep fu)) by (rewrite map_length; exact I).
    rewrite (map_nth (fun f => r_it (fu_rep f))). apply IT. rewrite nth_error_app1 by exact I. apply nth_error_nth'. exact I. }
  rewrite (printed_quiet c verbose oe O l' 0 SQ). rewrite Hn, seq_S, filter_app, map_app. f_equal.
  - f_equal. apply filter_ext_in. intros i I. apply in_seq in I. unfold iteration_due.
    replace (Nat.eqb i (S (List.length l'))) with false by (symmetry; apply Nat.eqb_neq; lia). rewrite orb_false_r. reflexivity.
  - cbn [map Nat.add printed filter]. unfold due. cbn [call_of Logger_Model.c_force fst snd orb map].
    unfold iteration_due. rewrite Nat.eqb_refl, orb_true_r. cbn [map]. rewrite col_it. cbn [snd].
    rewrite (IT (List.length l') fu) by (rewrite nth_error_app2, Nat.sub_diag by lia; reflexivity). reflexivity.
Qed.
Print Assumptions C86_printed.

(** The file of a new logger then holds exactly these lines after the two lines
    with the parameters, whatever the outcome of the run; nothing is shown on the
    screen and no other file changes. *)
Theorem C86_file : forall P (c : @cfg R P) verbose fmt n pt fn oe se w, is_template fn = false ->
  let (evs, o) := run_trace (ROps P) c n in
  exists g w' i, logged_run c verbose fmt n pt (new_logger fmt (Name fn) oe se w) = ((g, w'), o)
    /\ found w' fn i
    /\ w_data w' i = expected oe se 0 0 (solver_requests c verbose n pt evs)
    /\ w_out w' = w_out w
    /\ forall k, k <> i -> w_data w' k = w_data w k.
Proof.
  intros P c verbose fmt n pt fn oe se w T. unfold logged_run. destruct (run_trace (ROps P) c n) as [evs o].
  set (rs := solver_requests c verbose n pt evs).
  set (g0 := mkLogger se oe oe 0 1 None None []).
  unfold new_logger. fold g0. rewrite set_plain by exact T.
  set (i := fst (open_w fn w)). set (w1 := snd (open_w fn w)).
  assert (OP : found w1 fn i /\ w_data w1 i = [] /\ w_out w1 = w_out w /\ forall k, k <> i -> w_data w1 k = w_data w k).
  { unfold w1, i, open_w, found. destruct (lookup fn (w_files w)) as [j|] eqn:L; cbn [fst snd w_files w_data w_out].
    - split; [exact L|]. rewrite Nat.eqb_refl. split; [reflexivity|]. split; [reflexivity|].
      intros k Hk. destruct (Nat.eqb_spec k j); [contradiction|reflexivity].
    - cbn [lookup]. rewrite text_eqb_refl, Nat.eqb_refl. split; [reflexivity|]. split; [reflexivity|]. split; [reflexivity|].
      intros k Hk. destruct (Nat.eqb_spec k (w_next w)); [contradiction|reflexivity]. }
  destruct (C54_frequency fmt rs (fst (attach i (g0, w1))) (snd (attach i (g0, w1))) (File i))
    as (g' & w' & RUN & CT & OUT & OTH & FI & _); [reflexivity|split; reflexivity|apply requests_ok|].
  exists g', w', i. destruct OP as (O1&O2&O3&O4).
  split. { assert (SP : (fst (attach i (g0, w1)), snd (attach i (g0, w1))) = attach i (g0, w1)) by (destruct (attach i (g0, w1)); reflexivity).
    rewrite SP in RUN. fold rs. rewrite RUN. reflexivity. }
  split; [unfold found; rewrite FI; apply O1|]. split.
  { cbn [content] in CT. rewrite CT. cbn [attach fst snd g0 l_buffer writes fold_left]. rewrite O2. reflexivity. }
  assert (NW : warnings rs = []).
  { unfold rs, solver_requests. cbn [warnings]. rewrite requests_calls. generalize (logs evs). intros l.
    induction l as [|x l IH]; [reflexivity|]. cbn [map warnings]. exact IH. }
  split. { rewrite OUT by discriminate. rewrite NW, app_nil_r. cbn [attach fst snd g0 l_buffer writes fold_left]. exact O3. }
  intros k Hk. rewrite OTH by congruence. cbn [attach fst snd g0 l_buffer writes fold_left]. apply O4. exact Hk.
Qed.
Print Assumptions C86_file.

(** Without [verbose], and for elastic runs, every line has the same columns. *)
Theorem C86_header : forall P (c : @cfg R P) verbose n pt evs r, verbose = false \/ c_hard c = None ->
  run_trace (ROps P) c n = (evs, Ok r) ->
  forall k k', In k (status_calls (solver_requests c verbose n pt evs)) ->
               In k' (status_calls (solver_requests c verbose n pt evs)) -> c_hdr k = c_hdr k'.
Proof.
  intros P c verbose n pt evs r V H.
  assert (G : verbose = false \/ forall x, In x (logs evs) -> is_mix (r_str (snd x)) = false).
  { destruct V as [V|V]; [left; exact V|right]. intros x X.
    destruct (run_rows c n evs r H) as (l'&fu&Hch&_&Hl&Hst&_). rewrite Hl in X.
    assert (M : ~ In Mix (statuses evs)) by (eapply elastic_never_mixes; eauto).
    assert (F : exists f, In f (l' ++ [fu]) /\ snd x = fu_rep f).
    { apply in_app_or in X. destruct X as [X|[<-|[]]].
      - apply in_map_iff in X. destruct X as (f&<-&F). exists f. split; [apply in_or_app; auto|reflexivity].
      - exists fu. split; [apply in_or_app; right; left; reflexivity|reflexivity]. }
    destruct F as (f&F1&F2). rewrite F2. destruct (r_str (fu_rep f)) eqn:E; try reflexivity.
    exfalso. apply M. rewrite Hst. apply in_map_iff. exists f. auto. }
  intros k k'. rewrite solver_calls, !in_map_iff. intros (x&<-&X) (x'&<-&X'). unfold call_of, headers. cbn [c_hdr].
  destruct G as [->|G]; [reflexivity|]. rewrite (G x X), (G x' X'). reflexivity.
Qed.
Print Assumptions C86_header.

(** Non-vacuity: an elastic-plastic run in two iterations (one conjugate
    gradients step, one mixing step), with its lines. *)
Lemma L1_run : exists evs r, run_trace (ROps bool) L1c 3 = (evs, Ok r) /\
  (exists r1 r2, logs evs = [(LStatus Cg, false, r1); (LConverged, true, r2)] /\
     r_it r1 = 1%nat /\ r_str r1 = Cg /\ r_Acontact r1 = 2%nat /\ r_Acg r1 = 2%nat /\ r_Afl r1 = 2%nat /\ r_tau r1 = 2 / 3 /\
     r_it r2 = 2%nat /\ r_str r2 = Mix /\ r_Acontact r2 = 2%nat /\ r_Acg r2 = 0%nat /\ r_Afl r2 = 2%nat /\
     r_mixfac r2 = 19 / 200 /\ r_total r2 = 1 / 5) /\ x_success r = true /\ x_nit r = 2%nat.
Proof.
  destruct (outcome Bool.eqb pts2 L1 3) as [ls o] eqn:O. vm_compute in O. injection O as <- <-.
  destruct (exec_logs Bool.eqb eqb2_eq pts2 L1 3 _ _ _ _ ltac:(vm_compute; reflexivity)) as (evs&r&R1&R2&R3&R4&R5).
  exists evs, r. split; [exact R1|]. split; [|auto]. rewrite R2. cbn [map to_R fst snd]. eexists _, _. split; [reflexivity|].
  cbn [map_rep r_it r_str r_Acontact r_Acg r_Afl r_tau r_mixfac r_total]. unfold Q2R. cbn [Qnum Qden].
  repeat split; try reflexivity; lra.
Qed.
Example C86_nonvacuous : exists evs r, run_trace (ROps bool) L1c 3 = (evs, Ok r) /\
  let calls := status_calls (solver_requests L1c true 3 (tx "0.001") evs) in
  hardness_nonneg L1c /\ c_hard L1c = Some (HScalar (Q2R (1#10))) /\ c_ext L1c = None /\
  x_success r = true /\ x_nit r = 2%nat /\ statuses evs = [Cg; Mix] /\
  map (column "status") calls = [Some (Scal (SStr (tx "cg"))); Some (Scal (SStr (tx "CONVERGED")))] /\
  map (column "area") calls = [Some (int_real 2); Some (int_real 2)] /\
  map (column "cg area") calls = [Some (int_real 2); Some (int_real 0)] /\
  map (column "plast. area") calls = [Some (int_real 2); Some (int_real 2)] /\
  filter (iteration_due 10 2) (seq 1 2) = [2%nat] /\
  is_template (tx "ccg.log") = false.
Proof.
  destruct L1_run as (evs&r&R1&(r1&r2&L&A1&A2&A3&A4&A5&A6&B1&B2&B3&B4&B5&B6&B7)&S&N). exists evs, r.
  split; [exact R1|]. cbv zeta. rewrite solver_calls, L. cbn [map].
  split; [cbn; unfold Q2R; cbn; lra|]. split; [reflexivity|]. split; [reflexivity|]. split; [exact S|]. split; [exact N|].
  split. { destruct (run_rows _ _ _ _ R1) as (l'&fu&_&Hn&Hl&Hst&_). rewrite N in Hn. injection Hn as Hn.
    destruct l' as [|f [|]]; try discriminate. rewrite Hl in L. cbn in L. injection L as L1 L2 L3 L4. rewrite Hst. cbn [map app].
    rewrite L2, L4, A2, B2. reflexivity. }
  assert (HT : hardness_true L1c = true).
  { unfold hardness_true. cbn. apply negb_true_iff, Reqb_false. unfold Q2R. cbn. lra. }
  rewrite !col_status, !col_area, !col_cg, !col_plast by exact HT. cbn [fst snd]. rewrite A3, A4, A5, B3, B4, B5.
  repeat split; reflexivity.
Qed.

(** ** What does not hold *)

(** The log of a solver run can never be read with [read_convergence_log]: it
    begins with a message. *)
Theorem C86_unreadable_refuted : forall P (c : @cfg R P) verbose n pt evs oe se,
  read_convergence_log (expected oe se 0 0 (solver_requests c verbose n pt evs)) = Exc IndexError.
Proof.
  intros. unfold solver_requests. cbn [expected]. unfold read_convergence_log. cbn [hd].
  destruct (first_line_words (str_int (Z.of_nat n))) as (w1&rest&E). rewrite E. cbn [mapM].
  change (column_name (tx "maxiter")) with (@Exc text IndexError).
  unfold column_name. destruct (Logger_Model.after ":"%char w1) eqn:A; reflexivity.
Qed.
Print Assumptions C86_unreadable_refuted.

(** The area in the last line is that before the last step: also in a converged
    elastic run it can differ from the contact area of the returned forces. *)
Theorem C86_last_area_refuted : exists (c : @cfg R bool) evs r, elastic c /\ run_trace (ROps bool) c 3 = (evs, Ok r) /\
  x_success r = true /\ forall pt, exists calls k, status_calls (solver_requests c false 3 pt evs) = calls ++ [k] /\
    column "area" k = Some (int_real 2) /\ pressed c (fun p => - x_jac r p) = 1%nat.
Proof.
  destruct (exec_logs Bool.eqb eqb2_eq pts2 L2 3 _ _ _ _ ltac:(vm_compute; reflexivity)) as (evs&r&R1&R2&R3&R4&R5).
  exists L2c, evs, r. split; [reflexivity|]. split; [exact R1|]. split; [exact R3|]. intros pt.
  rewrite solver_calls, R2. cbn [map]. eexists [], _. split; [reflexivity|]. rewrite col_area. split; [reflexivity|].
  cbn [map pts2] in R5. injection R5 as J0 J1. 
  change (List.length (filter (fun p => if Rlt_dec (- x_jac r p) 0 then true else false) [false; true]) = 1%nat). cbn [filter].
  rewrite J0, J1. unfold Q2R. cbn [Qnum Qden].
  destruct (Rlt_dec (- (5 * / 1)) 0); [|lra]. destruct (Rlt_dec (- (0 * / 1)) 0); [lra|]. reflexivity.
Qed.
Print Assumptions C86_last_area_refuted.

(** In a detailed log of an elastic-plastic run the last column changes its
    meaning without a new header: here the mixing factor 0.095 stands under
    "tau". *)
Theorem C86_header_refuted : exists (c : @cfg R bool) evs r, run_trace (ROps bool) c 3 = (evs, Ok r) /\
  forall pt, exists m1 m2 k1 k2,
    status_calls (solver_requests c true 3 pt evs) = [k1; k2] /\
    expected 1 10 0 0 (solver_requests c true 3 pt evs)
      = [m1; m2; header_line (c_hdr k1) (c_vals k1); data_line (c_vals k1); data_line (c_vals k2)] /\
    last (c_hdr k1) [] = tx "tau" /\ last (c_hdr k2) [] = tx "mixfac" /\
    List.length (c_vals k1) = List.length (c_vals k2) /\ last (c_vals k2) (real 0) = real (19 / 200).
Proof.
  destruct L1_run as (evs&r&R1&(r1&r2&L&A1&A2&A3&A4&A5&A6&B1&B2&B3&B4&B5&B6&B7)&S&N). exists L1c, evs, r.
  split; [exact R1|]. intros pt. rewrite solver_calls, L. cbn [map].
  eexists _, _, _, _. split; [reflexivity|]. split.
  { unfold solver_requests. rewrite requests_calls, L. cbn [map expected]. reflexivity. }
  unfold call_of, headers, values. cbn [c_hdr c_vals fst snd]. rewrite A2, B2. cbn [is_mix]. rewrite B6.
  destruct (hardness_true L1c); repeat split; reflexivity.
Qed.
Print Assumptions C86_header_refuted.
