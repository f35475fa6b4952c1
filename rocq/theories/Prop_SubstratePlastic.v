(** * C96 Contact with a hardness on every periodic substrate of the package

    C84 for any modulus, Poisson number, thickness and stiffness of the uniform
    displacement, on a line or a surface.  [H] is a force per point, as the solver
    takes it. *)
From Coq Require Import Reals Lia Lra List Arith Bool String.
From Coquelicot Require Import Complex.
From Verif Require Import Py FFT_Base HalfSpace_Spec HalfSpace_Model HalfSpace_Proofs HalfSpace_Results HalfSpace_Results2 HalfSpace_Witness
  Systems_Model Systems_Spec Systems_Proofs Pipeline_Model Pipeline_Spec
  Contact_Spec Contact_Model Contact_Proofs Contact_Results Contact_Results2 Contact_Results3 Contact_Load Prop_Pipeline Prop_Contact
  Signorini_Spec Signorini_Base.
From Verif Require Import Signorini_Periodic Prop_Signorini Plastic_Spec.
From Verif Require Import Substrate_Contact Substrate_Contact_Spec Substrate_Plastic_Spec Prop_SubstrateContact.
From Verif Require Prop_HalfSpace CCG_Model CCG_Real CCG_Spec CCG_Proofs CCG_Results2 CCG_Plastic Substrate_Plastic.
From Coq Require Import List.
Import ListNotations.
Local Open Scope R_scope.

Lemma yielding_iff : forall a s, construct a = Ret s -> pos_args a -> forall H h delta F u,
  touching_yielding s (a_grid a) H h delta F u
  <-> Substrate_Plastic.yields (gx (a_grid a)) (gy (a_grid a)) (wave_compliance s) H h delta F u.
Proof.
  intros a s C PA H h delta F u. unfold touching_yielding, Substrate_Plastic.yields. rewrite (response_iff a s C PA).
  unfold on_grid. cbn [gx gy nth]. tauto.
Qed.

(** ** One state *)
Theorem C96_one_state : forall a s H h delta, construct a = Ret s -> pos_args a -> a_q0 a <> Some 0 -> 0 <= H ->
  exists F u, touching_yielding s (a_grid a) H h delta F u
  /\ forall F' u', touching_yielding s (a_grid a) H h delta F' u' ->
     forall x y, on_grid (a_grid a) x y -> F' x y = F x y /\ u' x y = u x y.
Proof.
  intros a s H h delta C PA Q PH. destruct (gx_pos a s C) as [PX PY].
  pose proof (wave_pos a s C PA Q) as W. pose proof (wave_Herm a s C) as WH.
  destruct (Substrate_Plastic.plastic_exists _ _ PX PY _ W WH H PH h) as [p E].
  exists (p delta). eexists. split; [apply (yielding_iff a s C PA), E|].
  intros F' u' C' x y [Hx Hy]. apply (yielding_iff a s C PA) in C'.
  exact (Substrate_Plastic.plastic_unique _ _ PX PY _ W WH H h delta _ _ _ _ C' (E delta) x y Hx Hy).
Qed.
Print Assumptions C96_one_state.

(** Pushing the surface further never lowers the mean force, raises it at most at
    the stiffness of the substrate, and the hardness bounds it. *)
Theorem C96_load_curve : forall a s H h delta delta' F u F' u' k, construct a = Ret s -> pos_args a -> a_q0 a <> Some 0 ->
  touching_yielding s (a_grid a) H h delta F u -> touching_yielding s (a_grid a) H h delta' F' u' -> delta <= delta' ->
  net_stiffness s (a_grid a) k ->
  mean (a_grid a) F <= mean (a_grid a) F' <= mean (a_grid a) F + k * (delta' - delta)
  /\ 0 <= mean (a_grid a) F <= H.
Proof.
  intros a s H h delta delta' F u F' u' k C PA Q T T' L K. destruct (gx_pos a s C) as [PX PY].
  pose proof (wave_pos a s C PA Q) as W. pose proof (wave_Herm a s C) as WH.
  rewrite (net_unique a s C k _ K (net_stiff a s C PA Q)). apply (yielding_iff a s C PA) in T. apply (yielding_iff a s C PA) in T'.
  split.
  - exact (Substrate_Plastic.plastic_load _ _ PX PY _ W WH H h delta delta' F u F' u' T T' L).
  - exact (Substrate_Plastic.plastic_range _ _ PX PY _ H h delta F u T).
Qed.
Print Assumptions C96_load_curve.

(** Every mean force between zero and the hardness is reached; it determines forces
    and displacements. *)
Theorem C96_at_load : forall a s H h P, construct a = Ret s -> pos_args a -> a_q0 a <> Some 0 -> 0 <= P <= H ->
  exists delta F u, touching_yielding s (a_grid a) H h delta F u /\ mean (a_grid a) F = P
  /\ forall delta' F' u', touching_yielding s (a_grid a) H h delta' F' u' -> mean (a_grid a) F' = P ->
     forall x y, on_grid (a_grid a) x y -> F' x y = F x y /\ u' x y = u x y.
Proof.
  intros a s H h P C PA Q PP. destruct (gx_pos a s C) as [PX PY]. assert (PH : 0 <= H) by lra.
  pose proof (wave_pos a s C PA Q) as W. pose proof (wave_Herm a s C) as WH.
  destruct (Substrate_Plastic.plastic_at_load _ _ PX PY _ W WH H PH h P PP) as (delta & F & u & T & E).
  exists delta, F, u. split; [apply (yielding_iff a s C PA); exact T|]. split; [exact E|]. intros delta' F' u' T' E' x y [Hx Hy].
  apply (yielding_iff a s C PA) in T'. change (mean (a_grid a) F') with (mean [gx (a_grid a); gy (a_grid a)] F') in E'.
  apply (Substrate_Plastic.plastic_load_unique _ _ PX PY _ W WH H h _ _ _ _ _ _ T' T); [congruence|assumption|assumption].
Qed.
Print Assumptions C96_at_load.

(** ** Relation to the elastic problem *)
Theorem C96_elastic : forall a s H h delta F u,
  (touching s (a_grid a) h delta F u -> (forall x y, on_grid (a_grid a) x y -> F x y <= H) ->
     touching_yielding s (a_grid a) H h delta F u)
  /\ (touching_yielding s (a_grid a) H h delta F u -> (forall x y, on_grid (a_grid a) x y -> F x y < H) ->
     touching s (a_grid a) h delta F u).
Proof.
  intros a s H h delta F u. split; intros [R1 C] L; (split; [exact R1|]); intros x y G; destruct (C x y G) as (C1 & C2 & C3); specialize (L x y G).
  - split; [lra|]. split; [auto|]. intros P. apply Rmult_integral in C3. lra.
  - specialize (C2 L). split; [lra|]. split; [exact C2|]. destruct (Req_dec (F x y) 0) as [Z|Z]; [rewrite Z; ring|].
    assert (gap h delta u x y <= 0) by (apply C3; lra). replace (gap h delta u x y) with 0 by lra. ring.
Qed.
Print Assumptions C96_elastic.

(** The surface pushed back to the substrate where it yields carries the same state
    elastically: loading it again causes no further flow. *)
Theorem C96_flattened : forall a s H h delta F u, 0 < H ->
  touching_yielding s (a_grid a) H h delta F u ->
  let h' := flattened H h delta F u in
  touching s (a_grid a) h' delta F u /\ touching_yielding s (a_grid a) H h' delta F u
  /\ (forall x y, on_grid (a_grid a) x y -> h' x y <= h x y /\ (F x y < H -> h' x y = h x y)).
Proof.
  intros a s H h delta F u PH [R1 C] h'.
  assert (T : touching s (a_grid a) h' delta F u).
  { split; [exact R1|]. intros x y G. destruct (C x y G) as (C1 & C2 & C3). split; [lra|]. unfold h', gap, flattened in *.
    destruct (Rlt_dec (F x y) H) as [L|L].
    - specialize (C2 L). split; [exact C2|]. destruct (Req_dec (F x y) 0) as [Z|Z]; [rewrite Z; ring|].
      assert (u x y - h x y - delta <= 0) by (apply C3; lra). replace (u x y - h x y - delta) with 0 by lra. ring.
    - split; [lra|ring]. }
  split; [exact T|]. split.
  - apply C96_elastic; [exact T|]. intros x y G. destruct (C x y G) as ([_ ?] & _). assumption.
  - intros x y G. destruct (C x y G) as (C1 & C2 & C3). unfold h', flattened. destruct (Rlt_dec (F x y) H) as [L|L]; [split; [lra|reflexivity]|].
    unfold gap in C3. assert (u x y - h x y - delta <= 0) by (apply C3; lra). split; [lra|intros; contradiction].
Qed.
Print Assumptions C96_flattened.

(** All points yield exactly from the offset on at which the uniform force [H] has
    moved the substrate below the surface. *)
Theorem C96_full : forall a s H h delta F u k, construct a = Ret s -> pos_args a -> a_q0 a <> Some 0 -> 0 < H ->
  touching_yielding s (a_grid a) H h delta F u -> net_stiffness s (a_grid a) k ->
  (forall x y, on_grid (a_grid a) x y -> F x y = H) <-> (forall x y, on_grid (a_grid a) x y -> H / k <= h x y + delta).
Proof.
  intros a s H h delta F u k C PA Q PH T K. destruct (gx_pos a s C) as [PX PY].
  pose proof (wave_pos a s C PA Q) as W. pose proof (wave_Herm a s C) as WH.
  rewrite (net_unique a s C k _ K (net_stiff a s C PA Q)). apply (yielding_iff a s C PA) in T.
  pose proof (Substrate_Plastic.plastic_full _ _ PX PY _ W WH H (Rlt_le _ _ PH) h delta F u PH T) as E.
  split; intros A.
  - intros x y [Hx Hy]. apply E; auto. intros i j Hi Hj. apply A. split; assumption.
  - intros x y [Hx Hy]. apply E; auto. intros i j Hi Hj. apply A. split; assumption.
Qed.
Print Assumptions C96_full.

(** ** Computed states *)
Theorem C96_load_error : forall a s H h delta F u Fs us eps k, construct a = Ret s -> pos_args a -> a_q0 a <> Some 0 ->
  elastic_response s (a_grid a) F u -> touching_yielding s (a_grid a) H h delta Fs us ->
  0 <= eps -> nearly_in_plastic_contact (a_grid a) H h delta F u eps -> net_stiffness s (a_grid a) k ->
  distance (a_grid a) F u Fs us <= eps * (INR (gx (a_grid a)) * INR (gy (a_grid a)) * (mean (a_grid a) F + mean (a_grid a) Fs))
  /\ Rabs (sqrt (mean (a_grid a) F) - sqrt (mean (a_grid a) Fs)) <= sqrt (k * eps).
Proof.
  intros a s H h delta F u Fs us eps k C PA Q R1 T PE V K. destruct (gx_pos a s C) as [PX PY].
  pose proof (wave_pos a s C PA Q) as W. pose proof (wave_Herm a s C) as WH.
  rewrite (net_unique a s C k _ K (net_stiff a s C PA Q)). apply (yielding_iff a s C PA) in T. apply (response_iff a s C PA) in R1.
  split.
  - pose proof (Substrate_Plastic.plastic_pair _ _ PX PY H h delta delta F u Fs us eps 0 V
      (Substrate_Plastic.plastic_near _ _ _ H h delta Fs us T) PE (Rle_refl 0)) as D.
    change (distance (a_grid a) F u Fs us) with (distance [gx (a_grid a); gy (a_grid a)] F u Fs us). eapply Rle_trans; [exact D|].
    apply Req_le. change (mean [gx (a_grid a); gy (a_grid a)] F) with (mean (a_grid a) F).
    change (mean [gx (a_grid a); gy (a_grid a)] Fs) with (mean (a_grid a) Fs). ring.
  - exact (Substrate_Plastic.plastic_load_error _ _ PX PY _ W WH H h delta F u Fs us eps R1 T PE V).
Qed.
Print Assumptions C96_load_error.

(** A converged calculation at a prescribed offset whose last iteration had status
    [cg] and a step. *)
Theorem C96_solver : forall o a s sf H off pentol maxiter r Fs us k,
  construct a = Ret s -> pos_args a -> a_q0 a <> Some 0 -> 0 <= pentol -> 0 < H ->
  CCG_Spec.ccg (solver_cfg o (periodic s) sf (Some H) None off pentol) maxiter = CCG_Model.Ok r ->
  CCG_Model.x_success r = true -> CCG_Model.x_str r = CCG_Model.Cg ->
  CCG_Model.x_tau r <> 0 \/ CCG_Model.x_nit r = 1%nat ->
  touching_yielding s (a_grid a) H (a_val (heights sf)) off Fs us ->
  net_stiffness s (a_grid a) k ->
  let F := a_val (o_jac (result_object (periodic s) r)) in
  let u := a_val (o_x (result_object (periodic s) r)) in
  let eps := pentol * (1 + sqrt (INR (gx (a_grid a) * gy (a_grid a)))) in
  elastic_response s (a_grid a) F u
  /\ nearly_in_plastic_contact (a_grid a) H (a_val (heights sf)) off F u eps
  /\ Rabs (sqrt (mean (a_grid a) F) - sqrt (mean (a_grid a) Fs)) <= sqrt (k * eps).
Proof.
  intros o a s sf H off pentol maxiter r Fs us k C PA Q PT PH RUN SU ST TA TY K F u eps.
  set (c := solver_cfg o (periodic s) sf (Some H) None off pentol) in *.
  assert (GS : sb_sub (periodic s) = a_grid a) by exact (hs_grid _ _ C).
  assert (CS : comp_shape (periodic s) = a_grid a).
  { assert (Min : forall g : list nat, map (fun p => Nat.min (fst p) (snd p)) (combine g g) = g).
    { induction g as [|q g IH]; [reflexivity|]. cbn. rewrite IH, Nat.min_id. reflexivity. }
    unfold comp_shape. cbn [periodic sb_topo sb_sub sb_grid]. rewrite ?(hs_grid _ _ C). apply Min. }
  assert (IN : forall z : pt (sb_sub (periodic s)), (px z < gx (a_grid a))%nat /\ (py z < gy (a_grid a))%nat).
  { clear - GS. revert GS. generalize (sb_sub (periodic s)). intros g' -> z. exact (pt_inside (a_grid a) z). }
  assert (OS : forall z, CCG_Spec.on_surface c z).
  { intros z. apply cfg_surface. rewrite CS. apply inside_true. exact (IN z). }
  assert (OF : CCG_Model.x_offset r = off) by (pose proof RUN as R0; apply CCG_Proofs.offset_kept in R0; [exact R0|reflexivity]).
  assert (CO : CCG_Spec.compliant (CCG_Spec.grid c) (CCG_Model.c_disp c)).
  { unfold c. rewrite cfg_grid. cbn [solver_cfg CCG_Model.c_disp]. apply (sub_compliant a s C PA Q). exact GS. }
  assert (TA' : CCG_Model.x_tau r <> 0 \/ CCG_Model.x_nit r = 1%nat /\ CCG_Spec.compliant (CCG_Spec.grid c) (CCG_Model.c_disp c)) by tauto.
  pose proof (CCG_Plastic.plastic_conditions c H eq_refl PH eq_refl maxiter r RUN SU ST TA') as PC. clear TA TA'.
  assert (NA : 0 <= sqrt (INR (CCG_Spec.n_active c r)) <= sqrt (INR (gx (a_grid a) * gy (a_grid a)))).
  { split; [apply sqrt_pos|]. apply sqrt_le_1_alt, le_INR. unfold CCG_Spec.n_active, c. rewrite cfg_grid.
    eapply Nat.le_trans; [apply filter_le|]. rewrite GS, points_count. lia. }
  assert (EQ : pentol * (1 + sqrt (INR (CCG_Spec.n_active c r))) <= eps) by (unfold eps; apply Rmult_le_compat_l; lra).
  assert (PE : pentol <= eps).
  { unfold eps. rewrite Rmult_plus_distr_l, Rmult_1_r. assert (0 <= pentol * sqrt (INR (gx (a_grid a) * gy (a_grid a)))) by (apply Rmult_le_pos; lra). lra. }
  assert (V : nearly_in_plastic_contact (a_grid a) H (a_val (heights sf)) off F u eps).
  { intros x y [Hx Hy]. unfold F, u. cbn [result_object o_jac o_x a_val].
    assert (HG : (x < gx (sb_sub (periodic s)))%nat /\ (y < gy (sb_sub (periodic s)))%nat) by (rewrite GS; split; assumption).
    unfold gap. rewrite !(write_in _ (sb_sub (periodic s)) _ _ x y HG). set (z := at_pt (sb_sub (periodic s)) x y HG).
    assert (IZ : In z (CCG_Spec.grid c)) by apply cfg_covers.
    destruct (PC z IZ (OS z)) as (L1 & L2 & L3 & _).
    assert (GZ : CCG_Spec.gap c r z = CCG_Model.x_x r z - a_val (heights sf) x y - off) by (unfold CCG_Spec.gap; rewrite OF; reflexivity).
    rewrite GZ in *. change (CCG_Model.c_pentol c) with pentol in *.
    split; [exact L1|]. split; [intros P1; specialize (L2 P1); lra|intros P1; specialize (L3 P1); lra]. }
  assert (RS : elastic_response s (a_grid a) F u).
  { assert (SV : ccg_solver o (periodic s) sf (Some H) (mkSa (Some off) None pentol maxiter) = Ret (result_object (periodic s) r)).
    { rewrite solver_eq.
      - cbn [sa_offset sa_force sa_pentol sa_maxiter]. fold c. rewrite RUN. reflexivity.
      - cbn [periodic sb_grid]. rewrite (hs_grid _ _ C). destruct (construct_inv a s C) as [Hn _]. exact (proj1 (new_inv _ _ Hn)). }
    assert (NN : nonneg (Some H)) by (intros q E; injection E as <-; lra).
    destruct (solver_response _ _ _ _ _ _ NN SV) as (_ & _ & OUT & UU). fold u F in UU, OUT.
    destruct (disp_comply a s C PA F) as (U & EU & VU). exists U. split; [exact EU|]. intros x y G. rewrite UU.
    assert (W : forall g' ev (J : field), g' = a_grid a -> write g' 0 (respond g' ev (fun p => - J (px p) (py p)))
       = write (a_grid a) 0 (respond (a_grid a) ev (fun p => - J (px p) (py p)))) by (intros; subst; reflexivity).
    rewrite (W _ _ _ GS). rewrite (write_in _ (a_grid a) _ _ x y G). unfold respond. cbn [periodic sb_disp].
    replace (write (a_grid a) 0 (fun p : pt (a_grid a) => - F (px p) (py p))) with (fun x y => - F x y); [rewrite EU; reflexivity|].
    apply FunctionalExtensionality.functional_extensionality. intros i. apply FunctionalExtensionality.functional_extensionality. intros j.
    unfold write. destruct (bool_dec _ _) as [B|B]; [reflexivity|]. rewrite OUT; [ring|]. rewrite CS. intros G'. apply B.
    apply inside_true. exact G'. }
  split; [exact RS|]. split; [exact V|].
  assert (EP : 0 <= eps) by lra.
  exact (proj2 (C96_load_error a s H (a_val (heights sf)) off F u Fs us eps k C PA Q RS TY EP V K)).
Qed.
Print Assumptions C96_solver.

(** A layer of thickness 3 on a 4 x 3 grid at half the mean force it can carry, with
    points that carry no force, and the same layer pressed until every point yields; a line. *)
Example C96_nonvacuous :
  (exists s delta F u, construct hsD = Ret s /\ pos_args hsD /\ a_q0 hsD <> Some 0 /\ a_thick hsD = Some 3
     /\ touching_yielding s (a_grid hsD) 1 (fun x y => INR (x * y)) delta F u /\ mean (a_grid hsD) F = 1 / 2
     /\ exists k, net_stiffness s (a_grid hsD) k)
  /\ (exists s k F u, construct hsD = Ret s /\ net_stiffness s (a_grid hsD) k /\ 0 < k
     /\ touching_yielding s (a_grid hsD) 1 (fun x y => INR (x * y)) (1 / k) F u
     /\ forall x y, on_grid (a_grid hsD) x y -> F x y = 1)
  /\ (exists s F u, construct hsE = Ret s /\ pos_args hsE /\ a_q0 hsE = Some 7
     /\ touching_yielding s (a_grid hsE) 2 (fun x _ => INR x) (-1) F u).
Proof.
  assert (Q : a_q0 hsD <> Some 0) by discriminate. split; [|split].
  - destruct hsD_ok as [s E].
    destruct (C96_at_load hsD s 1 (fun x y => INR (x * y)) (1 / 2) E hsD_pos Q ltac:(lra)) as (delta & F & u & T & M & _).
    exists s, delta, F, u. split; [exact E|]. split; [exact hsD_pos|]. split; [exact Q|]. split; [reflexivity|].
    split; [exact T|]. split; [exact M|]. exists (stiff (wave_compliance s)). exact (net_stiff hsD s E hsD_pos Q).
  - destruct hsD_ok as [s E]. destruct (C93_stiffness hsD s E hsD_pos Q) as (k & KP & K & _).
    destruct (C96_one_state hsD s 1 (fun x y => INR (x * y)) (1 / k) E hsD_pos Q ltac:(lra)) as (F & u & T & _).
    exists s, k, F, u. split; [exact E|]. split; [exact K|]. split; [exact KP|]. split; [exact T|].
    apply (C96_full hsD s 1 _ _ F u k E hsD_pos Q Rlt_0_1 T K). intros x y _. pose proof (pos_INR (x * y)). lra.
  - destruct hsE_ok as [s E]. assert (QE : a_q0 hsE <> Some 0) by (cbn; intros Z; injection Z; lra).
    destruct (C96_one_state hsE s 2 (fun x _ => INR x) (-1) E hsE_pos QE ltac:(lra)) as (F & u & T & _).
    exists s, F, u. split; [exact E|]. split; [exact hsE_pos|]. split; [reflexivity|exact T].
Qed.

(** An executed run on the line of two points of [Substrate_Witness]: heights 2 and
    3/2, hardness 3/2, tolerance 1/10.  It ends in the second iteration with status
    [cg] and step 1; the higher point yields and is penetrated by 1/8, the lower one
    is in elastic contact. *)
From Coq Require Import QArith Qreals.
From Verif Require Import Substrate_Witness.
From Verif Require CCG_Hom CCG_Q CCG_Witness.
Local Open Scope R_scope.
Definition soft_rows : surface := mkSurface [2%nat] (fun i _ => if Nat.eqb i 0 then 2 else 3 / 2) (fun _ _ => 0) 0 1.
Definition soft_problem : @CCG_Q.qprob (pt [2%nat]) :=
  CCG_Q.mkProb (fun p => inside [2%nat] (px p, py p)) (fun _ => false) (pair 1 (1#2)) (pair (4#3) (-2#3))
    (fun p => if Nat.eqb (px p) 0 then 2%Q else (3#2)%Q) (Some (3#2)%Q) None 0%Q None (1#10)%Q 1%Q 1%Q.
Definition soft_check (r : @CCG_Model.sresult Q (pt [2%nat])) : bool :=
  CCG_Model.x_success r && CCG_Witness.seqb (CCG_Model.x_str r) CCG_Model.Cg && negb (Qeq_bool (CCG_Model.x_tau r) 0)
  && forallb (fun p => Qeq_bool (CCG_Model.x_jac r p) (if Nat.eqb (px p) 0 then 3#2 else 3#4)) (points [2%nat]).
Lemma soft_exec : exists r, CCG_Spec.ccg (CCG_Q.rcfg_of (points [2%nat]) soft_problem) 20 = CCG_Model.Ok (CCG_Hom.map_result Q2R r)
  /\ soft_check r = true.
Proof. apply (CCG_Q.exec_check eqp eqp_eq). vm_compute. reflexivity. Qed.

Lemma soft_run : forall s, construct line = Ret s ->
  exists r, CCG_Spec.ccg (solver_cfg loose (periodic s) soft_rows (Some (3 / 2)) None 0 (1 / 10)) 20 = CCG_Model.Ok r
    /\ CCG_Model.x_success r = true /\ CCG_Model.x_str r = CCG_Model.Cg /\ CCG_Model.x_tau r <> 0
    /\ forall z, CCG_Model.x_jac r z = if Nat.eqb (px z) 0 then 3 / 2 else 3 / 4.
Proof.
  intros s H. destruct (line_gf s H) as (G0 & G1 & K0 & K1 & AR).
  assert (D : forall f, respond [2%nat] (sb_disp (periodic s)) f = CCG_Q.rmatvec (points [2%nat]) (pair 1 (1#2)) f).
  { intros f. apply (line_respond _ _ _ _ _ (disp_multiplier line s H)); unfold GF; rewrite !Re_RtoC, G0, G1, AR; unfold Q2R; cbn; lra. }
  assert (F : forall f, respond [2%nat] (sb_force (periodic s)) f = CCG_Q.rmatvec (points [2%nat]) (pair (4#3) (-2#3)) f).
  { intros f. apply (line_respond _ _ _ _ _ (force_multiplier line s H)); unfold SS; rewrite !Re_RtoC, K0, K1, AR; unfold Q2R; cbn; lra. }
  assert (S : sb_sub (periodic s) = [2%nat]) by exact (hs_grid _ _ H).
  assert (CS : comp_shape (periodic s) = [2%nat]).
  { unfold comp_shape. cbn [periodic sb_topo sb_sub sb_grid]. rewrite ?(hs_grid _ _ H). reflexivity. }
  revert D F S CS. generalize (periodic s). clear. intros [gr sz su tp ar di fo ev ck] D F S CS. cbn [sb_sub sb_disp sb_force] in *. subst su.
  set (sb := mkSubstrate gr sz [2%nat] tp ar di fo ev ck) in *.
  assert (E : solver_cfg loose sb soft_rows (Some (3 / 2)) None 0 (1 / 10) = CCG_Q.rcfg_of (points [2%nat]) soft_problem).
  { unfold solver_cfg, CCG_Q.rcfg_of. rewrite CS. cbn [sb sb_sub sb_disp sb_force soft_problem CCG_Q.q_slice CCG_Q.q_masked CCG_Q.q_h
      CCG_Q.q_C CCG_Q.q_S CCG_Q.q_hard CCG_Q.q_ext CCG_Q.q_off CCG_Q.q_f0 CCG_Q.q_pentol CCG_Q.q_forcetol CCG_Q.q_thermotol
      option_map loose op_forcetol op_thermotol op_mixfac op_mixdec op_minmix op_bisect].
    f_equal; try (apply FunctionalExtensionality.functional_extensionality; exact D);
      try (apply FunctionalExtensionality.functional_extensionality; exact F);
      try (f_equal; f_equal; unfold Q2R; cbn; lra); try (unfold Q2R; cbn; lra).
    apply FunctionalExtensionality.functional_extensionality. intros p. unfold read, CCG_Hom.lift. cbn [soft_rows heights a_val sf_base sf_plastic].
    destruct (Nat.eqb (px p) 0); unfold Q2R; cbn; lra. }
  destruct soft_exec as (r & R1 & CK). exists (CCG_Hom.map_result Q2R r). rewrite E. split; [exact R1|].
  unfold soft_check in CK. apply andb_prop in CK. destruct CK as [CK C4]. apply andb_prop in CK. destruct CK as [CK C3].
  apply andb_prop in CK. destruct CK as [C1 C2]. cbn [CCG_Hom.map_result CCG_Model.x_success CCG_Model.x_str CCG_Model.x_tau CCG_Model.x_jac].
  split; [exact C1|]. split; [apply CCG_Witness.seqb_eq; exact C2|]. split.
  - intros Z. replace 0 with (Q2R 0) in Z by (unfold Q2R; cbn; lra). apply eqR_Qeq in Z. apply Qeq_eq_bool in Z. rewrite Z in C3. discriminate.
  - intros z. rewrite forallb_forall in C4. specialize (C4 z (points_all _ z)). apply Qeq_bool_eq, Qeq_eqR in C4. unfold CCG_Hom.lift.
    rewrite C4. destruct (Nat.eqb (px z) 0); unfold Q2R; cbn; lra.
Qed.

Example C96_solver_nonvacuous : exists s r Fs us k,
  construct line = Ret s /\ pos_args line /\ a_q0 line <> Some 0
  /\ CCG_Spec.ccg (solver_cfg loose (periodic s) soft_rows (Some (3 / 2)) None 0 (1 / 10)) 20 = CCG_Model.Ok r
  /\ CCG_Model.x_success r = true /\ CCG_Model.x_str r = CCG_Model.Cg /\ CCG_Model.x_tau r <> 0
  /\ touching_yielding s (a_grid line) (3 / 2) (a_val (heights soft_rows)) 0 Fs us
  /\ net_stiffness s (a_grid line) k
  /\ (forall z, CCG_Model.x_jac r z = if Nat.eqb (px z) 0 then 3 / 2 else 3 / 4)
  /\ Rabs (sqrt (mean (a_grid line) (a_val (o_jac (result_object (periodic s) r)))) - sqrt (mean (a_grid line) Fs))
     <= sqrt (k * (1 / 10 * (1 + sqrt (INR (gx (a_grid line) * gy (a_grid line)))))).
Proof.
  destruct line_ok as [s H]. destruct (soft_run s H) as (r & R1 & SU & ST & TA & J).
  assert (Q : a_q0 line <> Some 0) by (cbn; intros Z; injection Z; lra).
  destruct (C96_one_state line s (3 / 2) (a_val (heights soft_rows)) 0 H line_pos Q ltac:(lra)) as (Fs & us & T & _).
  pose proof (net_stiff line s H line_pos Q) as K. exists s, r, Fs, us, (stiff (wave_compliance s)).
  split; [exact H|]. split; [exact line_pos|]. split; [exact Q|]. split; [exact R1|]. split; [exact SU|]. split; [exact ST|]. split; [exact TA|].
  split; [exact T|]. split; [exact K|]. split; [exact J|].
  exact (proj2 (proj2 (C96_solver loose line s soft_rows (3 / 2) 0 (1 / 10) 20 r Fs us _ H line_pos Q ltac:(lra) ltac:(lra) R1 SU ST (or_introl TA) T K))).
Qed.
