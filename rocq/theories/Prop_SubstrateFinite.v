(** * C105 The solver on every periodic substrate: line search and number of iterations

    C17, C79 and C82 need a linear, self-adjoint and positive compliance.  Here for
    every periodic substrate of the package: planes and lines, half-spaces and layers,
    any [stiffness_q0] other than zero. *)
From Coq Require Import Reals Lia Lra List Arith Bool QArith Qreals FunctionalExtensionality.
From Coquelicot Require Import Complex.
From Verif Require Import Py FFT_Base HalfSpace_Spec HalfSpace_Model HalfSpace_Proofs HalfSpace_Results HalfSpace_Results2
  Systems_Model Systems_Spec Systems_Proofs Pipeline_Model Contact_Model Contact_Proofs Contact_Results
  Signorini_Spec Substrate_Contact_Spec Substrate_Witness Prop_Finite Prop_FiniteForce.
From Verif Require Prop_Solver Prop_SubstrateContact.
From Verif Require CCG_Model CCG_Real CCG_Spec CCG_Results2 CCG_Hom CCG_Q CCG_Witness CCG_FiniteRun CCG_FiniteForce.
From Coq Require Import List.
Import ListNotations.
Local Open Scope R_scope.

Section Substrate.
  Variables (a : args) (s : sub).
  Hypothesis H : construct a = Ret s.
  Hypothesis PA : pos_args a.
  Hypothesis Q : a_q0 a <> Some 0.
  Variables (o : options) (sf : surface) (ext : option R) (off pentol : R).
  Let c := solver_cfg o (periodic s) sf None ext off pentol.

  Lemma pf_grid : sb_sub (periodic s) = a_grid a.
  Proof. exact (hs_grid _ _ H). Qed.
  Lemma pf_comp : comp_shape (periodic s) = a_grid a.
  Proof.
    unfold comp_shape. cbn [periodic sb_grid sb_sub]. rewrite (hs_grid _ _ H).
    assert (E : forall l : list nat, map (fun p => Nat.min (fst p) (snd p)) (combine l l) = l).
    { induction l as [|x l IH]; [reflexivity|]. cbn [combine map fst snd]. rewrite IH, Nat.min_id. reflexivity. }
    apply E.
  Qed.
  Lemma pf_multiplier : multiplier (sb_sub (periodic s)) (sb_disp (periodic s)) (- / area_per_pt (s_hs s)) (GF s).
  Proof. rewrite pf_grid. exact (disp_multiplier _ _ H). Qed.
  Lemma pf_linear : CCG_Spec.linear (CCG_Model.c_disp c).
  Proof. exact (respond_linear _ _ _ _ pf_multiplier). Qed.
  Lemma pf_adjoint : CCG_Spec.self_adjoint (CCG_Spec.grid c) (CCG_Model.c_disp c).
  Proof. unfold c. rewrite cfg_grid. exact (respond_selfadjoint _ _ _ _ pf_multiplier). Qed.
  Lemma pf_compliant : CCG_Spec.compliant (CCG_Spec.grid c) (CCG_Model.c_disp c).
  Proof.
    unfold c. rewrite cfg_grid. cbn [solver_cfg CCG_Model.c_disp]. exact (Prop_SubstrateContact.sub_compliant a s H PA Q _ pf_grid).
  Qed.
  Lemma pf_covers : CCG_Spec.covers c.
  Proof. apply cfg_covers. Qed.
  Lemma pf_in : forall z : pt (sb_sub (periodic s)), (px z < gx (a_grid a))%nat /\ (py z < gy (a_grid a))%nat.
  Proof. generalize pf_grid. generalize (sb_sub (periodic s)). intros g' -> z. exact (pt_inside (a_grid a) z). Qed.
  Lemma pf_slice : forall z, CCG_Model.c_slice c z && negb (CCG_Model.c_masked c z) = true.
  Proof.
    intros z. unfold c, solver_cfg. cbn [CCG_Model.c_slice CCG_Model.c_masked]. rewrite pf_comp.
    rewrite (proj2 (inside_true (a_grid a) _ _) (pf_in z)). reflexivity.
  Qed.
  Lemma pf_surface : forall z, CCG_Spec.on_surface c z.
  Proof. intros z. apply cfg_surface. rewrite pf_comp. apply inside_true. exact (pf_in z). Qed.

  (** The forces and displacements of an iterate as fields. *)
  Lemma pf_touching : forall st off',
    CCG_Spec.exact_solution c off' (fun p => - CCG_Model.s_f st p) -> CCG_Model.s_u st = CCG_Model.c_disp c (CCG_Model.s_f st) ->
    touching s (a_grid a) (a_val (heights sf)) off'
      (write (sb_sub (periodic s)) 0 (fun z => - CCG_Model.s_f st z)) (write (sb_sub (periodic s)) 0 (CCG_Model.s_u st)).
  Proof.
    intros st off' [_ EX] SU. set (F := write (sb_sub (periodic s)) 0 (fun z => - CCG_Model.s_f st z)).
    assert (EE : (fun p => - - CCG_Model.s_f st p) = CCG_Model.s_f st) by (apply functional_extensionality; intros; ring).
    rewrite EE in EX. split.
    - destruct (Prop_SubstrateContact.disp_comply a s H PA F) as (U & EU & _). exists U. split; [exact EU|]. intros x y GR.
      assert (GR' : on_grid (sb_sub (periodic s)) x y) by (rewrite pf_grid; exact GR).
      rewrite (write_in _ _ _ _ _ _ GR'). rewrite SU. change (CCG_Model.c_disp c) with (respond (sb_sub (periodic s)) (sb_disp (periodic s))).
      assert (W : forall g' (f : pt g' -> R), g' = a_grid a -> forall (G : on_grid g' x y),
        (forall i j, (fun x y => - write g' 0 (fun z => - f z) x y) i j = write g' 0 f i j) ->
        evaluate_disp s (mkArr (a_grid a) (fun x y => - write g' 0 (fun z => - f z) x y)) = Ret U ->
        respond g' (evaluate_disp s) f (at_pt g' x y G) = a_val U x y).
      { intros g' f -> G EW EV. unfold respond.
        replace (write (a_grid a) 0 f) with (fun x y => - write (a_grid a) 0 (fun z => - f z) x y); [rewrite EV; reflexivity|].
        apply functional_extensionality. intros i. apply functional_extensionality. intros j. apply EW. }
      apply (W _ _ pf_grid GR'); [|exact EU]. intros i j. cbv beta. unfold write. destruct (bool_dec _ _); ring.
    - intros x y HG. assert (HG' : on_grid (sb_sub (periodic s)) x y) by (rewrite pf_grid; exact HG).
      unfold F, gap. rewrite !(write_in _ _ _ _ _ _ HG'). set (z := at_pt (sb_sub (periodic s)) x y HG').
      destruct (EX z (pf_covers z) (pf_surface z)) as (E1 & E2 & E3). rewrite <- SU in E2, E3.
      change (CCG_Model.c_h c z) with (a_val (heights sf) x y) in E2, E3.
      split; [exact E1|]. split; [exact E2|]. rewrite <- E3. ring.
  Qed.
  Lemma pf_response : forall k st, CCG_Spec.after c k = CCG_Model.Ok st -> (1 <= k)%nat ->
    CCG_Model.s_u st = CCG_Model.c_disp c (CCG_Model.s_f st).
  Proof. intros k st Ha L. apply (CCG_Results2.after_inv c k st I Ha). lia. Qed.
End Substrate.

(** Every step is an exact line search for the complementary energy. *)
Theorem C105_line_search : forall a s o sf off pentol k st, construct a = Ret s -> pos_args a -> a_q0 a <> Some 0 ->
  let c := solver_cfg o (periodic s) sf None None off pentol in
  CCG_Spec.after c k = CCG_Model.Ok st -> (1 <= k)%nat ->
  let h := CCG_Model.cg_half (CCG_Real.ROps _) c st in
  forall tau, CCG_Spec.complementary_energy c (CCG_Model.s_off st) (CCG_Model.h_f h)
    <= CCG_Spec.complementary_energy c (CCG_Model.s_off st) (fun p => CCG_Model.s_f st p + tau * CCG_Model.h_t h p).
Proof.
  intros a s o sf off pentol k st H PA Q c Ha L.
  exact (Prop_Solver.C17_line_search _ c k st I eq_refl (pf_linear a s H o sf None off pentol) (pf_adjoint a s H o sf None off pentol)
    (pf_compliant a s H PA Q o sf None off pentol) Ha L).
Qed.
Print Assumptions C105_line_search.

(** Prescribed offset: [N] points in contact from iterate [k] on. *)
Theorem C105_offset : forall a s o sf off pentol k C, construct a = Ret s -> pos_args a -> a_q0 a <> Some 0 ->
  0 < pentol -> 0 < op_forcetol o -> 0 < op_thermotol o ->
  let c := solver_cfg o (periodic s) sf None None off pentol in
  let N := List.length (filter C (CCG_Spec.grid c)) in
  CCG_FiniteRun.restarted c k -> CCG_FiniteRun.settled c k (S N) C -> (exists z, C z = true) ->
  (exists st, CCG_Spec.after c (k + N) = CCG_Model.Ok st /\
    touching s (a_grid a) (a_val (heights sf)) off
      (write (sb_sub (periodic s)) 0 (fun z => - CCG_Model.s_f st z)) (write (sb_sub (periodic s)) 0 (CCG_Model.s_u st)))
  /\ forall maxiter, (k + N < maxiter)%nat -> exists r, CCG_Spec.ccg c maxiter = CCG_Model.Ok r
       /\ CCG_Model.x_success r = true /\ (CCG_Model.x_nit r <= S (k + N))%nat.
Proof.
  intros a s o sf off pentol k C H PA Q PT FT TT c N Hr Hs Hne.
  pose proof (pf_linear a s H o sf None off pentol) as LI. pose proof (pf_adjoint a s H o sf None off pentol) as SA.
  pose proof (pf_compliant a s H PA Q o sf None off pentol) as CO. pose proof (pf_covers s o sf None off pentol) as COV. fold c in LI, SA, CO, COV.
  split.
  - destruct (Hs N (Nat.le_succ_diag_r N)) as (st & Ha & _). exists st. split; [exact Ha|].
    apply (pf_touching a s H PA o sf None off pentol st off).
    + exact (C79_exact _ c k C st eq_refl eq_refl COV LI SA CO Hr Hs Ha).
    + destruct (Nat.eq_dec (k + N) 0) as [Z|Z].
      * destruct Hr as (s0 & Ha0 & _ & _ & SU0). replace (k + N)%nat with k in Ha by lia. fold c. congruence.
      * apply (pf_response s o sf None off pentol (k + N) st Ha). lia.
  - intros maxiter HM.
    exact (C79_stops _ c k C maxiter eq_refl eq_refl COV (conj PT (conj FT TT)) LI SA CO Hr Hs Hne HM).
Qed.
Print Assumptions C105_offset.

(** Prescribed load. *)
Theorem C105_load : forall a s o sf force off pentol k C, construct a = Ret s -> pos_args a -> a_q0 a <> Some 0 ->
  0 < pentol -> 0 < op_forcetol o -> 0 < op_thermotol o -> 0 < force ->
  let c := solver_cfg o (periodic s) sf None (Some force) off pentol in
  let N := List.length (filter C (CCG_Spec.grid c)) in
  CCG_FiniteForce.fresh c k force -> CCG_FiniteRun.settled c k N C ->
  (exists st, CCG_Spec.after c (k + N) = CCG_Model.Ok st /\
    let F := write (sb_sub (periodic s)) 0 (fun z => - CCG_Model.s_f st z) in
    touching s (a_grid a) (a_val (heights sf)) (CCG_Model.s_off st) F (write (sb_sub (periodic s)) 0 (CCG_Model.s_u st))
    /\ HalfSpace_Spec.total (a_grid a) F = force)
  /\ forall maxiter, (k + N < maxiter)%nat -> exists r, CCG_Spec.ccg c maxiter = CCG_Model.Ok r
       /\ CCG_Model.x_success r = true /\ (CCG_Model.x_nit r <= S (k + N))%nat.
Proof.
  intros a s o sf force off pentol k C H PA Q PT FT TT FP c N Hr Hs.
  pose proof (pf_linear a s H o sf (Some force) off pentol) as LI. pose proof (pf_adjoint a s H o sf (Some force) off pentol) as SA.
  pose proof (pf_compliant a s H PA Q o sf (Some force) off pentol) as CO. pose proof (pf_covers s o sf (Some force) off pentol) as COV. fold c in LI, SA, CO, COV.
  split.
  - destruct (Hs N (le_n N)) as (st & Ha & _). exists st. split; [exact Ha|]. cbv zeta.
    destruct (C82_exact _ c force k C st eq_refl eq_refl FP COV LI SA CO Hr Hs Ha) as [EX CA]. split.
    + apply (pf_touching a s H PA o sf (Some force) off pentol st _); [exact EX|].
      destruct (Nat.eq_dec (k + N) 0) as [Z|Z].
      * destruct Hr as (s0 & Ha0 & _ & SU0 & _). replace (k + N)%nat with k in Ha by lia. fold c. congruence.
      * apply (pf_response s o sf (Some force) off pentol (k + N) st Ha). lia.
    + rewrite <- CA. unfold CCG_FiniteForce.carried. rewrite CCG_Results2.lsum_filter.
      assert (GC : CCG_Spec.grid c = points (sb_sub (periodic s))) by apply cfg_grid. rewrite GC, sum_points.
      unfold HalfSpace_Spec.total. pose proof (pf_grid a s H) as GS. rewrite <- GS. apply Rsum2_ext. intros x y Hx Hy.
      rewrite !(write_in _ _ _ _ _ _ (conj Hx Hy)). pose proof (pf_slice a s H o sf (Some force) off pentol) as OS. fold c in OS. rewrite OS. reflexivity.
  - intros maxiter HM.
    exact (C82_stops _ c force k C maxiter eq_refl eq_refl FP COV (conj PT (conj FT TT)) LI SA CO Hr Hs HM).
Qed.
Print Assumptions C105_load.

(** ** The line of two points of Substrate_Witness.v *)
Section Example2.
  Import CCG_Model CCG_Real CCG_Spec CCG_Hom CCG_Q CCG_Witness CCG_FiniteRun CCG_FiniteForce.
  Variable b : @qprob (pt [2%nat]).
  Let K := QOps eqp (points [2%nat]).
  Fixpoint two_after (k : nat) : result (@state Q (pt [2%nat])) :=
    match k with
    | O => Ok (init_state K (qcfg (points [2%nat]) b))
    | S k => match two_after k with
             | Raise e => Raise e
             | Ok s => match iter K (qcfg (points [2%nat]) b) s with
                       | Raise e => Raise e
                       | Ok fu => Ok (fu_state fu)
                       end
             end
    end.
  Lemma two_after_ok k : after (rcfg_of (points [2%nat]) b) k = map_ok (map_state Q2R) (two_after k).
  Proof.
    pose proof (QR_hom eqp eqp_eq (points [2%nat])) as HH. pose proof (cfg_of_hom (points [2%nat]) b) as C.
    induction k as [|k IH]; cbn [after two_after].
    - cbn [map_ok]. f_equal. exact (init_hom _ _ Q2R HH _ _ C).
    - rewrite IH. destruct (two_after k) as [s|]; [|reflexivity]. cbn [map_ok].
      rewrite (iter_hom _ _ Q2R HH _ _ C). destruct (iter _ _ s) as [fu|]; reflexivity.
  Qed.
  (** Iterate [k + i] presses on both points, with status "cg" unless [i = 0]. *)
  Definition both (k i : nat) : bool :=
    match two_after (k + i) with
    | Ok s => forallb (fun p => Qle_bool (s_f s p) (-1 # 1000)) (points [2%nat]) && (Nat.eqb i 0 || seqb (s_str s) Cg)
    | Raise _ => false
    end.
  Lemma both_settled : forall k m, forallb (both k) (seq 0 (S m)) = true ->
    settled (rcfg_of (points [2%nat]) b) k m (fun _ => true).
  Proof.
    intros k m E i Hi. rewrite forallb_forall in E. assert (IN : In i (seq 0 (S m))) by (apply in_seq; lia). specialize (E i IN). unfold both in E.
    rewrite two_after_ok. destruct (two_after (k + i)) as [s|e]; [|discriminate]. apply andb_prop in E. destruct E as [E1 E2].
    exists (map_state Q2R s). split; [reflexivity|]. split.
    - intros p. split; [reflexivity|]. intros _. rewrite forallb_forall in E1. specialize (E1 p (points_all _ p)).
      apply Qle_bool_iff, Qle_Rle in E1. cbn. unfold lift. eapply Rle_lt_trans; [exact E1|]. unfold Q2R. cbn. lra.
    - intros L. apply orb_prop in E2. destruct E2 as [E2|E2]; [apply Nat.eqb_eq in E2; lia|]. cbn. apply seqb_eq. exact E2.
  Qed.
End Example2.

(** The same line with a prescribed offset, and with a prescribed load starting out of contact. *)
Definition line_with (ext : option Q) (off : Q) : @CCG_Q.qprob (pt [2%nat]) :=
  CCG_Q.mkProb (fun p => inside [2%nat] (px p, py p)) (fun _ => false) (pair 1 (1#2)) (pair (4#3) (-2#3))
    (fun p => if Nat.eqb (px p) 0 then 1%Q else (3#4)%Q) None ext off None (1#4)%Q 1%Q 1%Q.
Lemma line_settled_offset : CCG_FiniteRun.settled (CCG_Q.rcfg_of (points [2%nat]) (line_with None 0)) 0 3 (fun _ => true).
Proof. apply both_settled. vm_compute. reflexivity. Qed.
Lemma line_settled_load : CCG_FiniteRun.settled (CCG_Q.rcfg_of (points [2%nat]) (line_with (Some 3%Q) (-1))) 1 2 (fun _ => true).
Proof. apply both_settled. vm_compute. reflexivity. Qed.
(** The start is out of contact in load control, and pressed onto the substrate in offset control. *)
Lemma line_restarted : CCG_FiniteRun.restarted (CCG_Q.rcfg_of (points [2%nat]) (line_with None 0)) 0.
Proof.
  set (b := line_with None 0).
  assert (E : match two_after b 0 with
    | CCG_Model.Ok st => forallb (fun p => Qeq_bool (CCG_Model.s_u st p)
        (CCG_Model.c_disp (CCG_Q.qcfg (points [2%nat]) b) (CCG_Model.s_f st) p)) (points [2%nat]) && negb (CCG_Witness.seqb (CCG_Model.s_str st) CCG_Model.Cg)
    | CCG_Model.Raise _ => false end = true) by (vm_compute; reflexivity).
  destruct (line_settled_offset 0%nat ltac:(lia)) as (st & Ha & Hf & _). fold b in Ha. exists st. split; [exact Ha|].
  cbn [Nat.add] in Ha. rewrite two_after_ok in Ha. destruct (two_after b 0) as [s0|]; [|discriminate]. injection Ha as <-.
  apply andb_prop in E. destruct E as [E1 E2]. split; [|split].
  - intros Z. change (CCG_Model.s_str s0 = CCG_Model.Cg) in Z. rewrite Z in E2. discriminate.
  - intros p. left. apply Hf. reflexivity.
  - cbn [CCG_Hom.map_state CCG_Model.s_u CCG_Model.s_f]. rewrite (CCG_Hom.ch_disp _ _ _ (CCG_Q.cfg_of_hom (points [2%nat]) b)).
    apply functional_extensionality. intros p. rewrite forallb_forall in E1. specialize (E1 p (points_all _ p)).
    apply Qeq_bool_eq in E1. exact (Qeq_eqR _ _ E1).
Qed.
Lemma line_fresh : CCG_FiniteForce.fresh (CCG_Q.rcfg_of (points [2%nat]) (line_with (Some 3%Q) (-1))) 1 (Q2R 3).
Proof.
  set (b := line_with (Some 3%Q) (-1)).
  assert (E : match two_after b 0 with
    | CCG_Model.Ok st => forallb (fun p => Qle_bool 0 (CCG_Model.s_f st p)) (points [2%nat])
    | CCG_Model.Raise _ => false end = true) by (vm_compute; reflexivity).
  apply C82_start; [reflexivity|reflexivity|unfold Q2R; cbn; lra| |cbn; lia|reflexivity].
  intros st Ha p. rewrite two_after_ok in Ha. destruct (two_after b 0) as [s0|]; [|discriminate]. injection Ha as <-.
  rewrite forallb_forall in E. specialize (E p (points_all _ p)). apply Qle_bool_iff, Qle_Rle in E.
  replace (Q2R 0) with 0 in E by (unfold Q2R; cbn; lra). exact E.
Qed.
Lemma line_with_cfg : forall sb ext off, sb_sub sb = [2%nat] -> comp_shape sb = [2%nat] ->
  (forall f, respond [2%nat] (sb_disp sb) f = CCG_Q.rmatvec (points [2%nat]) (pair 1 (1#2)) f) ->
  (forall f, respond [2%nat] (sb_force sb) f = CCG_Q.rmatvec (points [2%nat]) (pair (4#3) (-2#3)) f) ->
  forall X : forall P, @CCG_Model.cfg R P -> Prop, X _ (CCG_Q.rcfg_of (points [2%nat]) (line_with ext off)) ->
  X _ (solver_cfg loose sb two_rows None (option_map Q2R ext) (Q2R off) (1 / 4)).
Proof.
  intros [gr sz su tp ar di fo ev ck] ext off S C D F X. cbn [sb_sub sb_disp sb_force] in *. subst su.
  set (sb := mkSubstrate gr sz [2%nat] tp ar di fo ev ck) in *.
  assert (E : solver_cfg loose sb two_rows None (option_map Q2R ext) (Q2R off) (1 / 4) = CCG_Q.rcfg_of (points [2%nat]) (line_with ext off)).
  { unfold solver_cfg, CCG_Q.rcfg_of. rewrite C. cbn [sb sb_sub sb_disp sb_force line_with CCG_Q.q_slice CCG_Q.q_masked CCG_Q.q_h
      CCG_Q.q_C CCG_Q.q_S CCG_Q.q_hard CCG_Q.q_ext CCG_Q.q_off CCG_Q.q_f0 CCG_Q.q_pentol CCG_Q.q_forcetol CCG_Q.q_thermotol
      option_map loose op_forcetol op_thermotol op_mixfac op_mixdec op_minmix op_bisect].
    f_equal; try (apply functional_extensionality; exact D); try (apply functional_extensionality; exact F);
      try (f_equal; unfold Q2R; cbn; lra); try (unfold Q2R; cbn; lra).
    apply functional_extensionality. intros p. unfold read, CCG_Hom.lift. cbn [two_rows heights a_val sf_base sf_plastic].
    destruct (Nat.eqb (px p) 0); unfold Q2R; cbn; lra. }
  rewrite E. auto.
Qed.
(** Both theorems apply to the line, and say what the call returns. *)
Example C105_nonvacuous : exists s, construct line = Ret s /\ pos_args line /\ a_q0 line <> Some 0
  /\ (exists r, CCG_Spec.ccg (solver_cfg loose (periodic s) two_rows None None 0 (1 / 4)) 3 = CCG_Model.Ok r /\ CCG_Model.x_success r = true)
  /\ (exists r, CCG_Spec.ccg (solver_cfg loose (periodic s) two_rows None (Some 3) (-1) (1 / 4)) 4 = CCG_Model.Ok r /\ CCG_Model.x_success r = true)
  /\ exists st, CCG_Spec.after (solver_cfg loose (periodic s) two_rows None (Some 3) (-1) (1 / 4)) 3 = CCG_Model.Ok st
    /\ touching s [2%nat] (a_val (heights two_rows)) (CCG_Model.s_off st)
         (write (sb_sub (periodic s)) 0 (fun z => - CCG_Model.s_f st z)) (write (sb_sub (periodic s)) 0 (CCG_Model.s_u st)).
Proof.
  destruct line_ok as (s & H). exists s. split; [exact H|]. split; [exact line_pos|].
  assert (Q0 : a_q0 line <> Some 0) by (cbn; intros [= Z]; lra). split; [exact Q0|].
  destruct (line_gf s H) as (G0 & G1 & K0 & K1 & AR).
  assert (D : forall f, respond [2%nat] (sb_disp (periodic s)) f = CCG_Q.rmatvec (points [2%nat]) (pair 1 (1#2)) f).
  { intros f. apply (line_respond _ _ _ _ _ (disp_multiplier line s H)); unfold GF; rewrite !Re_RtoC, G0, G1, AR; unfold Q2R; cbn; lra. }
  assert (F : forall f, respond [2%nat] (sb_force (periodic s)) f = CCG_Q.rmatvec (points [2%nat]) (pair (4#3) (-2#3)) f).
  { intros f. apply (line_respond _ _ _ _ _ (force_multiplier line s H)); unfold SS; rewrite !Re_RtoC, K0, K1, AR; unfold Q2R; cbn; lra. }
  pose proof (fun ext off => line_with_cfg (periodic s) ext off (hs_grid _ _ H) (pf_comp line s H) D F) as W.
  pose proof (W None 0%Q (fun P c => CCG_FiniteRun.restarted c 0 /\ CCG_FiniteRun.settled c 0 3 (fun _ => true)
    /\ List.length (filter (fun _ => true) (CCG_Spec.grid c)) = 2%nat /\ exists z : P, True)
    (conj line_restarted (conj line_settled_offset (conj eq_refl (ex_intro _ (at_pt [2%nat] 0 0 ltac:(split; cbn; lia)) I))))) as (A1 & A2 & A3 & z & _).
  pose proof (W (Some 3%Q) (-1)%Q (fun P c => CCG_FiniteForce.fresh c 1 (Q2R 3) /\ CCG_FiniteRun.settled c 1 2 (fun _ => true)
    /\ List.length (filter (fun _ => true) (CCG_Spec.grid c)) = 2%nat) (conj line_fresh (conj line_settled_load eq_refl))) as (B1 & B2 & B3).
  clear W. cbn [option_map] in *.
  replace (Q2R 0) with 0 in * by (unfold Q2R; cbn; lra). replace (Q2R 3) with 3 in * by (unfold Q2R; cbn; lra).
  replace (Q2R (-1)) with (-1) in * by (unfold Q2R; cbn; lra).
  split; [|].
  - destruct (C105_offset line s loose two_rows 0 (1 / 4) 0 (fun _ => true) H line_pos Q0) as [_ K]; try assumption; try (cbn; lra).
    + rewrite A3. exact A2.
    + exists z. reflexivity.
    + rewrite A3 in K. destruct (K 3%nat ltac:(lia)) as (r & R1 & R2 & _). exists r. auto.
  - destruct (C105_load line s loose two_rows 3 (-1) (1 / 4) 1 (fun _ => true) H line_pos Q0) as [L K]; try assumption; try (cbn; lra).
    + rewrite B3. exact B2.
    + rewrite B3 in K, L. split.
      * destruct (K 4%nat ltac:(lia)) as (r & R1 & R2 & _). exists r. auto.
      * destruct L as (st & L1 & L2 & _). exists st. auto.
Qed.
