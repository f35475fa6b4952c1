(** * Properties of the contact calculation as a whole (C74 - C76)

    [contact_mechanics (ccg_solver o)] is the pipeline function with the real
    solver on the real half-spaces, all from the models of the source.  [rms]
    and [callback] stay arbitrary. *)
From Coq Require Import Reals ZArith Lia Lra List Arith Bool String FunctionalExtensionality.
From Coquelicot Require Import Complex Coquelicot.
From Verif Require Import Py FFT_Base HalfSpace_Model HalfSpace_Spec HalfSpace_Proofs HalfSpace_Results
  HalfSpace_Results2 HalfSpace_Results3 Free_Model Free_Spec Free_Proofs Systems_Model Systems_Spec Systems_Proofs Factory_Model
  Pipeline_Model Pipeline_Spec Pipeline_Proofs Pipeline_Results Pipeline_More Pipeline_Out Prop_Pipeline
  Contact_Model Contact_Spec Contact_Proofs Contact_Results Contact_Results2 Contact_Results3 Contact_Load.
From Coq Require Import List.
Import ListNotations.
Local Open Scope R_scope.

Lemma hardness_nonneg : forall a, 0 <= sf_area (cm_topography a) -> nonneg (hardness_of a).
Proof.
  intros a A h H. unfold hardness_of, is_plastic_run in H. destruct (cm_hardness a) as [k|]; [|discriminate].
  destruct (Rlt_dec 0 k); [|discriminate]. injection H as <-. apply Rmult_le_pos; lra.
Qed.
Lemma hardness_elastic : forall a, is_plastic_run a = false -> hardness_of a = None.
Proof. intros a H. unfold hardness_of. rewrite H. reflexivity. Qed.
Lemma tolerance_pos : forall rms a, 0 < tolerance rms a.
Proof.
  intros rms a. assert (0 < / 10 ^ 12) by (apply Rinv_0_lt_compat, pow_lt; lra).
  unfold tolerance. destruct (Rle_dec _ (/ 10 ^ 12)); lra.
Qed.
Lemma size_two : forall n m, size [n; m] = (n * m)%nat.
Proof. intros. cbn. lia. Qed.
Lemma positive_two : forall lx ly, 0 < lx -> 0 < ly -> positive_sizes [lx; ly].
Proof. intros lx ly X Y z [<-|[<-|[]]]; assumption. Qed.

(** What every step of a run is: the result of the solver, sliced and divided
    by the area of a point. *)
Lemma step_result : forall o rms callback a calls r n m lx ly,
  contact_mechanics (ccg_solver o) rms callback a = (calls, r) ->
  sf_grid (cm_topography a) = [n; m] -> cm_sizes a = [lx; ly] ->
  forall i out, nth_error calls i = Some out ->
  exists sb s, make_half_space (substrate_name a) [n; m] [lx; ly] = Ret sb
    /\ (exists ss, explains (ccg_solver o) rms a sb ss /\ calls = map dn_out ss /\ nth_error ss i = Some s
        /\ (forall arr, r = Ret arr -> arr = returned ss))
    /\ sb_area sb = lx * ly / INR (n * m) /\ out = dn_out s
    /\ ccg_solver o sb (dn_before s) (hardness_of a) (dn_args s) = Ret (dn_opt s)
    /\ a_shape (out_disp out) = [n; m] /\ a_val (out_disp out) = a_val (o_x (dn_opt s))
    /\ a_shape (out_pressure out) = [n; m]
    /\ a_val (out_pressure out) = (fun x y => a_val (o_jac (dn_opt s)) x y / sb_area sb)
    /\ out_offset out = o_offset (dn_opt s).
Proof.
  intros o rms callback a calls r n m lx ly H G SZ i out N.
  destruct (C49_records _ _ _ _ _ _ H) as (ss & CA & [->|[sb E]] & _ & F).
  { subst calls. destruct i; discriminate. }
  pose proof N as N0. rewrite CA, nth_error_map in N. destruct (nth_error ss i) as [s|] eqn:NS; [|discriminate]. cbn [option_map] in N.
  assert (OUT : dn_out s = out) by congruence. clear N. rename N0 into N.
  assert (IN : In s ss) by (eapply nth_error_In; exact NS). exists sb, s.
  pose proof (ex_substrate _ _ _ _ _ E) as HS. pose proof (ex_solver _ _ _ _ _ E s IN) as SV.
  destruct (ex_output _ _ _ _ _ E s IN) as (n0 & n1 & d & SJ & HD & _ & _ & PR & _ & OF & _).
  rewrite OUT in *. rewrite G, SZ in HS. destruct (half_space_inv _ _ _ _ HS) as (_ & _ & _ & AR & _).
  destruct (half_space_shapes _ _ _ _ HS) as (_ & CS & SL & LX & LY & _).
  destruct (solver_inv _ _ _ _ _ _ SV) as (r' & _ & RO).
  split; [exact HS|]. split.
  { exists ss. split; [exact E|]. split; [exact CA|]. split; [exact NS|]. intros arr RA. apply (F arr RA). }
  split.
  { specialize (AR eq_refl). rewrite AR. cbn [fold_right]. rewrite size_two. f_equal. ring. }
  split; [reflexivity|]. split; [exact SV|].
  rewrite RO in SJ, HD, PR. cbn [result_object o_jac o_x a_shape] in SJ, HD, PR. rewrite CS in SJ. injection SJ as <- <-.
  rewrite PR, RO. unfold head_slice in HD. cbn [a_shape a_val result_object o_jac o_x amap] in *.
  rewrite SL in HD. cbn [List.length Nat.ltb Nat.leb] in HD. injection HD as HD. rewrite <- HD. cbn [a_shape a_val].
  split; [|split; [reflexivity|split; [exact CS|split; [reflexivity|rewrite OF, RO; reflexivity]]]].
  clear - SL LX LY. cbn in LX, LY, SL. destruct (sb_sub sb) as [|n' [|m' [|? ?]]]; try discriminate. cbn in *.
  rewrite !Nat.min_l by assumption. reflexivity.
Qed.

(** ** C74: the returned maps are an elastic state *)

(** Periodic half-space: pressure and displacement handed to the callback
    belong to each other, in every step, elastic or plastic, converged or
    not. *)
Theorem C74_periodic : forall o rms callback a calls r n m lx ly,
  contact_mechanics (ccg_solver o) rms callback a = (calls, r) ->
  substrate_name a = "periodic"%string ->
  sf_grid (cm_topography a) = [n; m] -> cm_sizes a = [lx; ly] -> 0 < lx -> 0 < ly -> 0 <= sf_area (cm_topography a) ->
  forall out, In out calls ->
    a_shape (out_disp out) = [n; m] /\ a_shape (out_pressure out) = [n; m]
    /\ periodic_response [n; m] lx ly (a_val (out_pressure out)) (a_val (out_disp out)).
Proof.
  intros o rms callback a calls r n m lx ly H NM G SZ X Y AR out IO. apply In_nth_error in IO. destruct IO as [i N].
  destruct (step_result _ _ _ _ _ _ _ _ _ _ H G SZ i out N) as (sb & s & HS & _ & A & -> & SV & S1 & V1 & S2 & V2 & _).
  split; [exact S1|]. split; [exact S2|]. rewrite V1, V2.
  destruct (solver_response _ _ _ _ _ _ (hardness_nonneg a AR) SV) as (_ & _ & _ & R1).
  destruct (half_space_cases _ _ _ _ HS) as [(_ & hs & C0 & SB)|(E & _)]; [|rewrite NM in E; discriminate].
  pose proof (periodic_field [n; m] [lx; ly] hs (a_val (o_jac (dn_opt s))) C0 (positive_two _ _ X Y) eq_refl) as PF.
  cbn [cell_size nth Nat.min List.length Nat.pred] in PF. unfold cell_size in PF. cbn in PF.
  rewrite R1. clear R1. subst sb. cbn [periodic sb_area sb_disp sb_sub].
  pose proof (hs_grid _ _ C0) as GG. cbn [periodic_args a_grid] in GG.
  assert (W : forall u, write (h_grid (s_hs hs)) 0 (respond (h_grid (s_hs hs)) (evaluate_disp hs) (fun p => u (px p) (py p)))
     = write [n; m] 0 (respond [n; m] (evaluate_disp hs) (fun p => u (px p) (py p)))) by (intros; rewrite GG; reflexivity).
  rewrite (W (fun x y => - a_val (o_jac (dn_opt s)) x y)). exact PF.
Qed.
Print Assumptions C74_periodic.

(** Half-space without periodicity. *)
Theorem C74_free : forall o rms callback a calls r n m lx ly,
  contact_mechanics (ccg_solver o) rms callback a = (calls, r) ->
  substrate_name a = "nonperiodic"%string ->
  sf_grid (cm_topography a) = [n; m] -> cm_sizes a = [lx; ly] -> 0 < lx -> 0 < ly -> 0 <= sf_area (cm_topography a) ->
  forall out, In out calls ->
    a_shape (out_disp out) = [n; m] /\ a_shape (out_pressure out) = [n; m]
    /\ free_response [n; m] [lx; ly] (a_val (out_pressure out)) (a_val (out_disp out)).
Proof.
  intros o rms callback a calls r n m lx ly H NM G SZ X Y AR out IO. apply In_nth_error in IO. destruct IO as [i N].
  destruct (step_result _ _ _ _ _ _ _ _ _ _ H G SZ i out N) as (sb & s & HS & _ & A & -> & SV & S1 & V1 & S2 & V2 & _).
  split; [exact S1|]. split; [exact S2|]. rewrite V1, V2.
  destruct (solver_response _ _ _ _ _ _ (hardness_nonneg a AR) SV) as (_ & _ & Z & R1).
  destruct (half_space_shapes _ _ _ _ HS) as (_ & CS & _). rewrite CS in Z.
  destruct (half_space_cases _ _ _ _ HS) as [(E & _)|(_ & hs & C0 & SB)]; [rewrite NM in E; discriminate|].
  pose proof (free_field [n; m] [lx; ly] hs (a_val (o_jac (dn_opt s))) C0 (positive_two _ _ X Y) Z) as PF.
  rewrite R1. clear R1. subst sb. exact PF.
Qed.
Print Assumptions C74_free.

(** The real solver meets what C48 and C49 ask of a solver: the calculation
    returns, unless hardness and pressures are combined (C19). *)
Theorem C74_returns : forall o rms callback a n m lx ly, modes a = 1%nat ->
  sf_grid (cm_topography a) = [n; m] -> cm_sizes a = [lx; ly] -> (2 <= n)%nat -> (2 <= m)%nat ->
  (substrate_name a = "periodic"%string \/ substrate_name a = "nonperiodic"%string) ->
  (1 <= requested a)%nat -> (1 <= cm_maxiter a)%nat -> is_plastic_run a = false \/ cm_pressures a = None -> quiet callback ->
  exists calls arr, contact_mechanics (ccg_solver o) rms callback a = (calls, Ret arr).
Proof.
  intros o rms callback a n m lx ly MO G SZ N M NM RQ MI T Q.
  apply (C48_accepted _ rms callback a n m lx ly MO G SZ N M NM RQ); [|exact Q]. apply solver_solves; assumption.
Qed.
Print Assumptions C74_returns.

(** Without a single iteration allowed the solver fails, and its
    UnboundLocalError (a NameError) is the outcome of the whole calculation. *)
Theorem C74_no_iterations : forall o rms callback a n m lx ly, modes a = 1%nat ->
  sf_grid (cm_topography a) = [n; m] -> cm_sizes a = [lx; ly] -> (2 <= n)%nat -> (2 <= m)%nat ->
  (substrate_name a = "periodic"%string \/ substrate_name a = "nonperiodic"%string) ->
  (1 <= requested a)%nat -> cm_maxiter a = 0%nat ->
  contact_mechanics (ccg_solver o) rms callback a = ([], Exc NameErr).
Proof.
  intros o rms callback a n m lx ly MO G SZ N M NM RQ MI. apply mode_ok_modes in MO.
  rewrite (cm_run _ _ _ _ MO), G, SZ.
  destruct (half_space_ok (substrate_name a) n m lx ly) as (sb & HS & T).
  { destruct NM as [->| ->]; [left|right]; repeat split; lia. }
  rewrite HS, MI. destruct (half_space_shapes _ _ _ _ HS) as (SG & _).
  assert (SV : forall sf hd off force pen, ccg_solver o sb sf hd (mkSa off force pen 0) = Exc NameErr).
  { intros sf hd off force pen. rewrite solver_eq by (rewrite SG; right; reflexivity). reflexivity. }
  assert (PX : forall off force pen y sf, exists w', proxy (ccg_solver o) sb (is_plastic_run a) (mkSa off force pen 0) (y, sf) = (w', Exc NameErr)).
  { intros off force pen y sf. unfold proxy. destruct (is_plastic_run a).
    - unfold plastic_minimize_proxy. rewrite SV. destruct (proxy_cases sb (Exc NameErr) y) as [y' E]. rewrite E. eexists. reflexivity.
    - rewrite SV. destruct (proxy_cases sb (Exc NameErr) y) as [y' E]. rewrite E. eexists. reflexivity. }
  assert (CC : forall off force pen h y sf, exists w', contact_calculation (ccg_solver o) sb [lx; ly] (is_plastic_run a) pen 0 off force h (y, sf)
     = (w', Exc NameErr)).
  { intros. unfold contact_calculation. destruct (PX off force pen y sf) as [w' E]. rewrite E. eexists. reflexivity. }
  assert (CA : forall c pen h y sf, sf_grid sf = [n; m] -> exists w',
     calculation (ccg_solver o) sb [lx; ly] (is_plastic_run a) (is_plastic_run a || cm_is_plastic a) pen 0 c h (y, sf) = (w', Exc NameErr)).
  { intros [x|f|] pen h y sf GS; cbn [calculation]; [apply CC|apply CC|]. unfold next_contact_step. cbn [fst snd].
    set (sf' := reset_plastic _ sf).
    assert (G' : sf_grid sf' = [n; m]) by (unfold sf', reset_plastic; destruct (_ || _)%bool; exact GS).
    assert (A : exists t b, amax (heights sf') = Ret t /\ amin (heights sf') = Ret b).
    { unfold amax, amin, aentries. unfold heights. cbn [a_shape]. rewrite G'. unfold size. cbn [fold_right].
      destruct (n * (m * 1))%nat as [|k] eqn:K; [nia|]. cbn [seq map]. eauto. }
    destruct A as (t & b & -> & ->). cbn [bind]. apply CC. }
  destruct (commands a) as [|c cs] eqn:CM.
  - exfalso. unfold requested in RQ. unfold commands in CM. destruct (cm_offsets a) as [[|? ?]|]; try discriminate; [cbn in RQ; lia|].
    destruct (cm_pressures a) as [[|? ?]|]; try discriminate; [cbn in RQ; lia|]. destruct (cm_nsteps a) as [k|]; [|lia].
    destruct (Z.to_nat k); [lia|discriminate].
  - cbn [run]. destruct (surface_heights a) as [_ HG].
    destruct (CA c (tolerance rms a) None fresh (cm_surface a) ltac:(congruence)) as [[y' sf'] E]. rewrite E. reflexivity.
Qed.
Print Assumptions C74_no_iterations.

(** The displacements are the requested offsets. *)
Theorem C74_offsets : forall o rms callback a l calls p ar d g c, cm_offsets a = Some l ->
  contact_mechanics (ccg_solver o) rms callback a = (calls, Ret (p, ar, d, g, c)) -> d = l.
Proof. intros o rms callback a l calls p ar d g c. apply C49_offsets. apply solver_keeps. Qed.
Print Assumptions C74_offsets.

(** The mean pressures of the converged steps are the requested ones within
    the tolerance of the force loop. *)
Theorem C74_pressures : forall o rms callback a l calls p ar d g c n m lx ly, cm_pressures a = Some l ->
  contact_mechanics (ccg_solver o) rms callback a = (calls, Ret (p, ar, d, g, c)) ->
  sf_grid (cm_topography a) = [n; m] -> cm_sizes a = [lx; ly] -> 0 < lx -> 0 < ly -> 0 <= sf_area (cm_topography a) ->
  List.length p = List.length l
  /\ forall i pi li, nth_error p i = Some pi -> nth_error l i = Some li -> nth_error c i = Some true ->
     pi <> 0 /\ Rabs ((pi - li) / pi) < op_thermotol o.
Proof.
  intros o rms callback a l calls p ar d g c n m lx ly PL H G SZ X Y AR.
  assert (NO : cm_offsets a = None).
  { destruct (mode_ok a) eqn:MO; [|unfold contact_mechanics in H; rewrite MO in H; discriminate].
    unfold mode_ok in MO. rewrite PL in MO. destruct (cm_nsteps a), (cm_offsets a); congruence. }
  destruct (C49_records _ _ _ _ _ _ H) as (ss & _ & [->|[sb E]] & _ & F); destruct (F _ eq_refl) as (NE & L & A); [congruence|].
  injection A as -> _ _ _ ->. unfold requested in L. rewrite NO, PL in L. rewrite map_length. split; [exact L|].
  intros i pi li. rewrite !nth_error_map. intros N1 N2 N3. destruct (nth_error ss i) as [s|] eqn:NS; [|discriminate].
  cbn [option_map] in N1, N3. injection N1 as <-. injection N3 as CV.
  assert (IN : In s ss) by (eapply nth_error_In; exact NS).
  destruct (ex_pressures _ _ _ _ _ E l PL i s NS) as (_ & FO & _). rewrite N2 in FO. cbn [option_map] in FO.
  destruct (solver_force _ _ _ _ _ _ _ _ _ _ (ex_substrate _ _ _ _ _ E) (hardness_nonneg a AR) (ex_solver _ _ _ _ _ E s IN) FO CV) as [Z B].
  destruct (ex_output _ _ _ _ _ E s IN) as (n0 & n1 & dd & _ & _ & _ & _ & _ & _ & _ & OL & _). rewrite OL.
  rewrite SZ in *. cbn [fold_right] in *. rewrite Rmult_1_r in *. assert (0 < lx * ly) by (apply Rmult_lt_0_compat; assumption).
  set (t := asum (o_jac (dn_opt s))) in *. split.
  - unfold Rdiv. apply Rmult_integral_contrapositive_currified; [exact Z|]. apply Rinv_neq_0_compat. lra.
  - replace ((t / (lx * ly) - li) / (t / (lx * ly))) with ((t - li * (lx * ly)) / t); [exact B|]. field. repeat split; try exact Z; lra.
Qed.
Print Assumptions C74_pressures.

(** ** C75: the two ends of the loading curve *)

(** Steps without plasticity, whatever the solver makes of them. *)
Lemma elastic_steps : forall o rms callback a calls p ar d g c n m lx ly,
  cm_nsteps a = None -> is_plastic_run a = false ->
  contact_mechanics (ccg_solver o) rms callback a = (calls, Ret (p, ar, d, g, c)) ->
  sf_grid (cm_topography a) = [n; m] -> cm_sizes a = [lx; ly] ->
  List.length calls = requested a /\ List.length p = requested a /\ List.length ar = requested a
  /\ List.length d = requested a /\ List.length g = requested a /\ List.length c = requested a
  /\ forall i out, nth_error calls i = Some out -> exists sb sa r,
     (forall l, cm_offsets a = Some l -> exists x, nth_error l i = Some x /\ sa_offset sa = Some x /\ sa_force sa = None)
     /\ (forall l, cm_pressures a = Some l -> exists x, nth_error l i = Some x /\ sa_offset sa = None /\ sa_force sa = Some (x * (lx * ly)))
     /\ make_half_space (substrate_name a) [n; m] [lx; ly] = Ret sb
     /\ sb_area sb = lx * ly / INR (n * m)
     /\ ccg_solver o sb (cm_topography a) None sa = Ret r
     /\ sa_pentol sa = tolerance rms a /\ sa_maxiter sa = cm_maxiter a
     /\ nth_error c i = Some (o_success r)
     /\ nth_error p i = Some (asum (mkArr [n; m] (a_val (o_jac r))) / (lx * ly))
     /\ nth_error ar i = Some (count_positive (mkArr [n; m] (a_val (o_jac r))) / INR (n * m))
     /\ nth_error d i = Some (o_offset r)
     /\ nth_error g i = Some (amean (mkArr [n; m] (a_val (o_x r))) - amean (heights (cm_topography a)) - o_offset r)
     /\ a_shape (out_disp out) = [n; m] /\ a_val (out_disp out) = a_val (o_x r)
     /\ a_shape (out_pressure out) = [n; m]
     /\ a_val (out_pressure out) = (fun y z => a_val (o_jac r) y z / (lx * ly / INR (n * m))).
Proof.
  intros o rms callback a calls p ar d g c n m lx ly NS0 EL H G SZ.
  destruct (C49_records _ _ _ _ _ _ H) as (ss & CA & B & _ & F). destruct (F _ eq_refl) as (NE & L & A).
  destruct B as [->|[sb0 E0]]; [congruence|]. clear sb0 E0.
  assert (K : List.length calls = requested a) by (rewrite CA, map_length; exact L).
  split; [exact K|]. pose proof A as A'. injection A' as -> -> -> -> ->. rewrite !map_length. repeat (split; [exact L|]).
  intros i out N.
  destruct (step_result _ _ _ _ _ _ _ _ _ _ H G SZ i out N) as (sb & s & HS & (ss' & E & CA' & NS & RT) & AR & OUT & SV & S1 & V1 & S2 & V2 & OF).
  specialize (RT _ eq_refl). unfold returned in RT. injection RT as P1 P2 P3 P4 P5. rewrite P1, P2, P3, P4, P5.
  assert (IN : In s ss') by (eapply nth_error_In; exact NS). destruct (ex_settings _ _ _ _ _ E s IN) as [PT MI].
  destruct (ex_elastic _ _ _ _ _ E EL s IN) as [_ HB]. specialize (HB (or_introl NS0)).
  destruct (ex_output _ _ _ _ _ E s IN) as (n0 & n1 & dd & SJ & _ & _ & _ & PR & _ & _ & LO & RA).
  rewrite HB, (hardness_elastic a EL) in SV.
  assert (JS : a_shape (o_jac (dn_opt s)) = [n; m]) by (rewrite <- OUT in PR; rewrite PR in S2; exact S2).
  exists sb, (dn_args s), (dn_opt s). split; [|split].
  { intros l OL. destruct (ex_offsets _ _ _ _ _ E l OL i s NS) as (LI & XO & XF).
    destruct (nth_error l i) as [x|] eqn:LX; [|apply nth_error_None in LX; lia]. exists x. auto. }
  { intros l OL. destruct (ex_pressures _ _ _ _ _ E l OL i s NS) as (LI & XF & XO).
    destruct (nth_error l i) as [x|] eqn:LX; [|apply nth_error_None in LX; lia]. exists x. split; [reflexivity|]. split; [exact XO|].
    rewrite XF, SZ. cbn [option_map fold_right]. rewrite Rmult_1_r. reflexivity. }
  rewrite !nth_error_map, NS. cbn [option_map].
  assert (EA : forall u : arr, a_shape u = [n; m] -> u = mkArr [n; m] (a_val u)) by (intros [sh v] Q; cbn in Q |- *; rewrite Q; reflexivity).
  rewrite <- (EA _ JS), LO, RA, HB, G, SZ, AR in *. cbn [fold_right]. rewrite Rmult_1_r.
  assert (GP : gap_of s = amean (mkArr [n; m] (a_val (o_x (dn_opt s)))) - amean (heights (cm_topography a)) - o_offset (dn_opt s)).
  { unfold gap_of. rewrite HB, <- OUT, <- V1, <- (EA _ S1). reflexivity. }
  rewrite GP, size_two. repeat (split; [first [assumption|reflexivity]|]). rewrite V2. reflexivity.
Qed.

Lemma one_mode : forall o rms callback a calls arr, contact_mechanics (ccg_solver o) rms callback a = (calls, Ret arr) ->
  (forall l, cm_offsets a = Some l -> cm_nsteps a = None /\ cm_pressures a = None /\ requested a = List.length l)
  /\ (forall l, cm_pressures a = Some l -> cm_nsteps a = None /\ cm_offsets a = None /\ requested a = List.length l).
Proof.
  intros o rms callback a calls arr H.
  destruct (mode_ok a) eqn:MO; [|unfold contact_mechanics in H; rewrite MO in H; discriminate].
  unfold mode_ok in MO. unfold requested. split; intros l E; rewrite E in *.
  - destruct (cm_nsteps a), (cm_pressures a); try discriminate. auto.
  - destruct (cm_nsteps a), (cm_offsets a); try discriminate. auto.
Qed.

(** Arrays given entry by entry. *)
Lemma arrays_of : forall (l : list R) (calls : list output), List.length calls = List.length l ->
  forall B (f : R -> B) (q : list B), List.length q = List.length l ->
  (forall i out x, nth_error calls i = Some out -> nth_error l i = Some x -> nth_error q i = Some (f x)) -> q = map f l.
Proof.
  intros l calls LC B f q LQ Q. symmetry. apply nth_error_ext_map; [congruence|]. intros i x N.
  destruct (nth_error calls i) as [out|] eqn:NC; [exact (Q i out x NC N)|]. apply nth_error_None in NC.
  assert (NN : nth_error l i <> None) by congruence. apply nth_error_Some in NN. lia.
Qed.

Lemma amean_zero : forall n m (f : field), (0 < n)%nat -> (0 < m)%nat -> (forall x y, f x y = 0) ->
  asum (mkArr [n; m] f) = 0 /\ amean (mkArr [n; m] f) = 0 /\ count_positive (mkArr [n; m] f) = 0.
Proof.
  intros n m f N M Z. assert (f = fun _ _ => 0) by (extensionality x; extensionality y; apply Z). subst f.
  assert (A0 : asum (mkArr [n; m] (fun _ _ => 0)) = 0).
  { rewrite asum_grid by (repeat split; cbn; lia). unfold HalfSpace_Spec.total, Rsum2.
    rewrite (Rsum_ext _ _ (fun _ => 0)); [apply Rsum_0|]. intros. apply Rsum_0. }
  split; [exact A0|]. split; [unfold amean; rewrite A0; unfold Rdiv; ring|].
  unfold count_positive, amap. cbn [a_shape a_val]. destruct (Rlt_dec 0 0); [lra|]. exact A0.
Qed.

(** No point reaches the half-space: every step converges to zero pressure,
    zero displacement and zero contact area; the mean gap is that of the
    undeformed surfaces. *)
Theorem C75_no_contact : forall o rms callback a l calls p ar d g c n m lx ly,
  cm_offsets a = Some l -> is_plastic_run a = false ->
  0 < op_forcetol o -> 0 < op_thermotol o -> (1 <= cm_maxiter a)%nat ->
  sf_grid (cm_topography a) = [n; m] -> cm_sizes a = [lx; ly] ->
  (forall x, In x l -> forall i j, (i < n)%nat -> (j < m)%nat -> a_val (heights (cm_topography a)) i j + x <= 0) ->
  contact_mechanics (ccg_solver o) rms callback a = (calls, Ret (p, ar, d, g, c)) ->
  p = map (fun _ => 0) l /\ ar = map (fun _ => 0) l /\ d = l /\ c = map (fun _ => true) l
  /\ g = map (fun x => - amean (heights (cm_topography a)) - x) l
  /\ forall out, In out calls -> (forall i j, a_val (out_pressure out) i j = 0) /\ (forall i j, a_val (out_disp out) i j = 0).
Proof.
  intros o rms callback a l calls p ar d g c n m lx ly OL EL T1 T2 MI G SZ NC H.
  pose proof (C74_offsets _ _ _ _ _ _ _ _ _ _ _ OL H) as D.
  destruct (proj1 (one_mode _ _ _ _ _ _ H) l OL) as (NS0 & _ & RQ).
  destruct (elastic_steps _ _ _ _ _ _ _ _ _ _ _ _ _ _ NS0 EL H G SZ) as (LC & L1 & L2 & _ & L3 & L4 & ST).
  rewrite RQ in *. pose proof (arrays_of l calls LC) as KM.
  assert (K : forall i out, nth_error calls i = Some out -> exists x, nth_error l i = Some x
     /\ nth_error p i = Some 0 /\ nth_error ar i = Some 0 /\ nth_error c i = Some true
     /\ nth_error g i = Some (- amean (heights (cm_topography a)) - x)
     /\ (forall i j, a_val (out_pressure out) i j = 0) /\ (forall i j, a_val (out_disp out) i j = 0)).
  { intros i out N. destruct (ST i out N) as (sb & sa & r & XO & _ & HS & AR & SV & SP & SM & C0 & C1 & C2 & _ & C3 & _ & V1 & _ & V2).
    destruct (XO l OL) as (x & LX & SO & SF).
    exists x. split; [exact LX|].
    destruct (half_space_shapes _ _ _ _ HS) as (_ & _ & _ & _ & _ & PX & PY). cbn in PX, PY.
    destruct (solver_no_contact o (substrate_name a) [n; m] [lx; ly] sb (cm_topography a) sa x HS G) as (r' & E' & S' & O' & J' & X').
    - split; [rewrite SP; apply tolerance_pos|auto].
    - exact SO.
    - exact SF.
    - lia.
    - intros i' j' [I' J0]. apply NC; [eapply nth_error_In; exact LX|exact I'|exact J0].
    - rewrite E' in SV. injection SV as <-.
      destruct (amean_zero n m (a_val (o_jac r')) PX PY J') as (J1 & _ & J3). destruct (amean_zero n m (a_val (o_x r')) PX PY X') as (_ & X2 & _).
      rewrite C0, C1, C2, C3, J1, J3, X2, S', O'. unfold Rdiv. rewrite !Rmult_0_l.
      repeat split; try reflexivity; [f_equal; ring| |].
      + intros. rewrite V2, J'. unfold Rdiv. ring.
      + intros. rewrite V1. apply X'. }
  repeat split.
  - apply KM; [exact L1|]. intros i out x NO N. destruct (K i out NO) as (x' & ? & ? & _). assumption.
  - apply KM; [exact L2|]. intros i out x NO N. destruct (K i out NO) as (x' & ? & ? & ? & _). assumption.
  - exact D.
  - apply KM; [exact L4|]. intros i out x NO N. destruct (K i out NO) as (x' & ? & ? & ? & ? & _). assumption.
  - apply KM; [exact L3|]. intros i out x NO N. destruct (K i out NO) as (x' & ? & ? & ? & ? & ? & _). congruence.
  - intros. apply In_nth_error in H0. destruct H0 as [k N]. destruct (K k out N) as (_ & _ & _ & _ & _ & _ & U & V). auto.
  - intros. apply In_nth_error in H0. destruct H0 as [k N]. destruct (K k out N) as (_ & _ & _ & _ & _ & _ & U & V). auto.
Qed.
Print Assumptions C75_no_contact.

Lemma amean_field : forall n m (f f' : field), (0 < n)%nat -> (0 < m)%nat ->
  (forall x y, (x < n)%nat -> (y < m)%nat -> f x y = f' x y) ->
  asum (mkArr [n; m] f) = asum (mkArr [n; m] f') /\ amean (mkArr [n; m] f) = amean (mkArr [n; m] f')
  /\ count_positive (mkArr [n; m] f) = count_positive (mkArr [n; m] f').
Proof.
  assert (A0 : forall n m (f f' : field), (0 < n)%nat -> (0 < m)%nat ->
    (forall x y, (x < n)%nat -> (y < m)%nat -> f x y = f' x y) -> asum (mkArr [n; m] f) = asum (mkArr [n; m] f')).
  { intros n m f f' N M E. rewrite !asum_grid by (repeat split; cbn; lia). apply Rsum2_ext. intros. apply E; assumption. }
  intros n m f f' N M E. split; [apply A0; assumption|]. split.
  - unfold amean. rewrite (A0 n m f f') by assumption. reflexivity.
  - unfold count_positive, amap. cbn [a_shape a_val]. apply A0; try assumption. intros. rewrite E by assumption. reflexivity.
Qed.

(** The surface is pressed flat and the pressure it takes is positive: every
    step converges to that pressure, full contact, no gap, and to the surface
    itself as displacement. *)
Theorem C75_full_contact : forall o rms callback a l press calls p ar d g c n m lx ly,
  substrate_name a = "periodic"%string -> cm_offsets a = Some l -> is_plastic_run a = false ->
  0 < op_forcetol o -> 0 < op_thermotol o -> (1 <= cm_maxiter a)%nat ->
  sf_grid (cm_topography a) = [n; m] -> cm_sizes a = [lx; ly] -> 0 < lx -> 0 < ly ->
  (forall x, In x l ->
     periodic_response [n; m] lx ly (press x) (fun i j => a_val (heights (cm_topography a)) i j + x)
     /\ forall i j, (i < n)%nat -> (j < m)%nat -> 0 <= a_val (heights (cm_topography a)) i j + x /\ 0 < press x i j) ->
  contact_mechanics (ccg_solver o) rms callback a = (calls, Ret (p, ar, d, g, c)) ->
  p = map (fun x => mean [n; m] (press x)) l /\ ar = map (fun _ => 1) l /\ d = l /\ c = map (fun _ => true) l
  /\ g = map (fun _ => 0) l
  /\ forall k out x, nth_error calls k = Some out -> nth_error l k = Some x ->
     forall i j, (i < n)%nat -> (j < m)%nat -> a_val (out_pressure out) i j = press x i j
       /\ a_val (out_disp out) i j = a_val (heights (cm_topography a)) i j + x.
Proof.
  intros o rms callback a l press calls p ar d g c n m lx ly NM OL EL T1 T2 MI G SZ X Y FC H.
  pose proof (C74_offsets _ _ _ _ _ _ _ _ _ _ _ OL H) as D.
  destruct (proj1 (one_mode _ _ _ _ _ _ H) l OL) as (NS0 & _ & RQ).
  destruct (elastic_steps _ _ _ _ _ _ _ _ _ _ _ _ _ _ NS0 EL H G SZ) as (LC & L1 & L2 & _ & L3 & L4 & ST).
  rewrite RQ in *. pose proof (arrays_of l calls LC) as KM.
  assert (K : forall i out, nth_error calls i = Some out -> exists x, nth_error l i = Some x
     /\ nth_error p i = Some (mean [n; m] (press x)) /\ nth_error ar i = Some 1 /\ nth_error c i = Some true
     /\ nth_error g i = Some 0
     /\ forall i j, (i < n)%nat -> (j < m)%nat -> a_val (out_pressure out) i j = press x i j
       /\ a_val (out_disp out) i j = a_val (heights (cm_topography a)) i j + x).
  { intros i out N. destruct (ST i out N) as (sb & sa & r & XO & _ & HS & AR & SV & SP & SM & C0 & C1 & C2 & _ & C3 & _ & V1 & _ & V2).
    destruct (XO l OL) as (x & LX & SO & SF).
    exists x. split; [exact LX|].
    destruct (half_space_shapes _ _ _ _ HS) as (_ & _ & _ & _ & _ & PX & PY). cbn in PX, PY.
    destruct (half_space_cases _ _ _ _ HS) as [(_ & hs & CH & SB)|(Q & _)]; [|rewrite NM in Q; discriminate].
    destruct (FC x (nth_error_In _ _ LX)) as [PR PP].
    assert (AP : 0 < lx * ly / INR (n * m)).
    { apply Rdiv_lt_0_compat; [apply Rmult_lt_0_compat; assumption|]. apply lt_0_INR. nia. }
    assert (NP : 0 < INR (n * m)) by (apply lt_0_INR; nia).
    destruct (solver_full_contact o [n; m] [lx; ly] hs (cm_topography a) sa x (press x) CH (positive_two _ _ X Y) eq_refl G)
      as (r' & E' & S' & O' & J').
    - split; [rewrite SP; apply tolerance_pos|auto].
    - exact SO.
    - exact SF.
    - lia.
    - exact PR.
    - intros i' j' [I' J0]. specialize (PP i' j' I' J0). lra.
    - subst sb. rewrite E' in SV. injection SV as <-. change (sb_area (periodic hs)) with (area_per_pt (s_hs hs)) in AR. rewrite AR in J'.
      assert (JV : forall x0 y0, (x0 < n)%nat -> (y0 < m)%nat -> a_val (o_jac r') x0 y0 = press x x0 y0 * (lx * ly / INR (n * m))).
      { intros x0 y0 I0 J0. apply (J' x0 y0 (conj I0 J0)). }
      assert (XV : forall x0 y0, (x0 < n)%nat -> (y0 < m)%nat -> a_val (o_x r') x0 y0 = a_val (heights (cm_topography a)) x0 y0 + x).
      { intros x0 y0 I0 J0. apply (J' x0 y0 (conj I0 J0)). }
      destruct (amean_field n m _ _ PX PY JV) as (J1 & _ & _). destruct (amean_field n m _ _ PX PY XV) as (_ & X2 & _).
      assert (OKG : okgrid [n; m]) by (repeat split; cbn; lia).
      rewrite C0, C1, C2, C3, J1, X2, S', O'. repeat split; try reflexivity.
      + f_equal. rewrite asum_grid by exact OKG. unfold mean, HalfSpace_Spec.total. cbn [gx gy nth].
        rewrite (Rsum2_ext _ _ _ (fun i0 j0 => lx * ly / INR (n * m) * press x i0 j0)) by (intros; ring).
        rewrite Rsum2_scal, mult_INR in *. field. pose proof (lt_0_INR _ PX). pose proof (lt_0_INR _ PY). repeat split; lra.
      + f_equal. assert (CP : count_positive (mkArr [n; m] (a_val (o_jac r'))) = INR (n * m)).
        { unfold count_positive, amap. cbn [a_shape a_val].
          rewrite asum_grid by exact OKG. unfold HalfSpace_Spec.total.
          rewrite (Rsum2_ext _ _ _ (fun _ _ => 1)).
          - unfold Rsum2. rewrite (Rsum_ext _ _ (fun _ => INR m)).
            + rewrite Rsum_const. cbn [gx nth]. rewrite mult_INR. reflexivity.
            + intros. rewrite Rsum_const. cbn [gy nth]. ring.
          - intros i0 j0 I0 J0. rewrite (JV i0 j0 I0 J0). destruct (PP i0 j0 I0 J0) as [_ PQ].
            destruct (Rlt_dec 0 _) as [_|NN]; [reflexivity|]. exfalso. apply NN. apply Rmult_lt_0_compat; assumption. }
        rewrite CP. field. lra.
      + f_equal. assert (AS : amean (mkArr [n; m] (fun i0 j0 => a_val (heights (cm_topography a)) i0 j0 + x)) = amean (heights (cm_topography a)) + x).
        { unfold amean. cbn [a_shape heights]. rewrite G, size_two. unfold heights. rewrite G, !asum_grid by exact OKG. cbn [a_val].
          unfold HalfSpace_Spec.total. rewrite Rsum2_plus.
          assert (SC : Rsum2 (gx [n; m]) (gy [n; m]) (fun _ _ => x) = INR (n * m) * x).
          { unfold Rsum2. rewrite (Rsum_ext _ _ (fun _ => INR m * x)); [|intros; apply Rsum_const]. rewrite Rsum_const. cbn [gx nth]. rewrite mult_INR. ring. }
          rewrite SC. field. lra. }
        rewrite AS. ring.
      + rewrite V2, JV by assumption. field. split; [lra|]. split; [|lra]. lra.
      + rewrite V1. apply XV; assumption. }
  split; [|split; [|split; [exact D|split; [|split]]]].
  - apply KM; [exact L1|]. intros i out x NO N. destruct (K i out NO) as (x' & N' & ? & _). congruence.
  - apply KM; [exact L2|]. intros i out x NO N. destruct (K i out NO) as (x' & ? & ? & ? & _). assumption.
  - apply KM; [exact L4|]. intros i out x NO N. destruct (K i out NO) as (x' & ? & ? & ? & ? & _). assumption.
  - apply KM; [exact L3|]. intros i out x NO N. destruct (K i out NO) as (x' & ? & ? & ? & ? & ? & _). congruence.
  - intros k out x N NX. destruct (K k out N) as (x' & N' & _ & _ & _ & _ & V). rewrite NX in N'. injection N' as <-. exact V.
Qed.
Print Assumptions C75_full_contact.

Lemma wavenumber_pos : forall g lx ly k l, 0 < lx -> 0 < ly -> on_grid g k l -> ~ (k = 0 /\ l = 0)%nat ->
  0 < wavenumber g lx ly k l.
Proof.
  intros g lx ly k l X Y [K L] Z. unfold wavenumber. apply Rmult_lt_0_compat; [pose proof PI_RGT_0; lra|].
  apply sqrt_lt_R0.
  assert (P : forall n i z, 0 < z -> (i < n)%nat -> i <> 0%nat -> 0 < (INR (Nat.min i (n - i)) / z) ^ 2).
  { intros n i z ZP I0 I1. apply pow_lt. apply Rdiv_lt_0_compat; [|exact ZP]. apply lt_0_INR. lia. }
  destruct (Nat.eq_dec k 0) as [K0|K0].
  - assert (l <> 0%nat) by tauto. pose proof (P _ l ly Y L H). pose proof (pow2_ge_0 (INR (Nat.min k (gx g - k)) / lx)). lra.
  - pose proof (P _ k lx X K K0). pose proof (pow2_ge_0 (INR (Nat.min l (gy g - l)) / ly)). lra.
Qed.

Lemma wave_bound : forall g p q phi x y, -1 <= plane_wave g p q phi x y <= 1.
Proof. intros. unfold plane_wave. apply COS_bound. Qed.

Lemma response_ext : forall g lx ly p u u', (forall x y, on_grid g x y -> u x y = u' x y) ->
  periodic_response g lx ly p u -> periodic_response g lx ly p u'.
Proof.
  intros g lx ly p u u' E [W M]. split.
  - intros k l G Z. rewrite <- (W k l G Z). apply fft2_ext. intros. symmetry. apply E. split; assumption.
  - rewrite <- M. unfold mean, HalfSpace_Spec.total. f_equal. apply Rsum2_ext. intros. symmetry. apply E. split; assumption.
Qed.

(** A wave of amplitude [A] pressed flat: the pressure is a wave of amplitude
    [pi A / wavelength] about the mean pressure, which grows linearly with the
    offset; the condition is that this pressure is positive and that the
    surface lies above the undeformed half-space. *)
Theorem C75_wave : forall o rms callback a l calls p ar d g c n m lx ly kx ky phi A h0,
  let kappa := wavenumber [n; m] lx ly kx ky in
  let k0 := (wavenumber [n; m] lx ly 1 0 + wavenumber [n; m] lx ly 0 1) / 4 in
  substrate_name a = "periodic"%string -> cm_offsets a = Some l -> is_plastic_run a = false ->
  0 < op_forcetol o -> 0 < op_thermotol o -> (1 <= cm_maxiter a)%nat ->
  sf_grid (cm_topography a) = [n; m] -> (2 <= n)%nat -> (2 <= m)%nat -> cm_sizes a = [lx; ly] -> 0 < lx -> 0 < ly ->
  (kx < n)%nat -> (ky < m)%nat -> ~ (kx = 0 /\ ky = 0)%nat ->
  (forall i j, (i < n)%nat -> (j < m)%nat ->
     a_val (heights (cm_topography a)) i j = A * plane_wave [n; m] kx ky phi i j + h0) ->
  (forall x, In x l -> Rabs A <= h0 + x /\ kappa / 2 * Rabs A < k0 * (h0 + x)) ->
  contact_mechanics (ccg_solver o) rms callback a = (calls, Ret (p, ar, d, g, c)) ->
  p = map (fun x => k0 * (h0 + x)) l /\ ar = map (fun _ => 1) l /\ d = l /\ c = map (fun _ => true) l /\ g = map (fun _ => 0) l
  /\ forall k out x, nth_error calls k = Some out -> nth_error l k = Some x ->
     forall i j, (i < n)%nat -> (j < m)%nat ->
       a_val (out_pressure out) i j = kappa / 2 * A * plane_wave [n; m] kx ky phi i j + k0 * (h0 + x).
Proof.
  intros o rms callback a l calls p ar d g c n m lx ly kx ky phi A h0 kappa k0 NM OL EL T1 T2 MI G N M SZ X Y KX KY KZ HW CD H.
  assert (PQ : on_grid [n; m] kx ky) by (split; cbn; assumption).
  assert (W : 0 < kappa) by (apply wavenumber_pos; assumption).
  assert (W1 : 0 < wavenumber [n; m] lx ly 1 0) by (apply wavenumber_pos; try assumption; [split; cbn; lia|lia]).
  assert (W2 : 0 < wavenumber [n; m] lx ly 0 1) by (apply wavenumber_pos; try assumption; [split; cbn; lia|lia]).
  pose proof (fun x => wave_response [n; m] lx ly kx ky phi ltac:(cbn; lia) ltac:(cbn; lia) PQ KZ A (h0 + x) W ltac:(lra)
    (fun k l' Gk Z => wavenumber_pos _ _ _ _ _ X Y Gk Z)) as WR.
  fold kappa k0 in WR.
  destruct (C75_full_contact o rms callback a l
    (fun x i j => kappa / 2 * A * plane_wave [n; m] kx ky phi i j + k0 * (h0 + x)) calls p ar d g c n m lx ly)
    as (P1 & P2 & P3 & P4 & P5 & P6); try assumption.
  - intros x IX. destruct (CD x IX) as [B1 B2]. split.
    + eapply response_ext; [|apply (WR x)]. intros i j [Hi Hj]. cbn in Hi, Hj. rewrite HW by assumption. ring.
    + intros i j Hi Hj. rewrite HW by assumption. pose proof (wave_bound [n; m] kx ky phi i j) as WB.
      set (w := plane_wave [n; m] kx ky phi i j) in *.
      assert (AB : - Rabs A <= A * w).
      { assert (Q : Rabs (A * w) <= Rabs A).
        { rewrite Rabs_mult. assert (Rabs w <= 1) by (apply Rabs_le; lra). pose proof (Rabs_pos A). nra. }
        pose proof (Rle_abs (- (A * w))) as Q2. rewrite Rabs_Ropp in Q2. lra. }
      split; [lra|]. assert (kappa / 2 * (- Rabs A) <= kappa / 2 * (A * w)) by (apply Rmult_le_compat_l; lra). lra.
  - split; [|repeat (split; [assumption|]); intros k out x N1 N2 i j Hi Hj; apply (P6 k out x N1 N2 i j Hi Hj)]. rewrite P1. apply map_ext. intros x.
    assert (PXY : 0 < INR n /\ 0 < INR m) by (split; apply lt_0_INR; lia).
    assert (MW : mean [n; m] (fun i j => kappa / 2 * A * plane_wave [n; m] kx ky phi i j + k0 * (h0 + x)) = k0 * (h0 + x)).
    { apply wave_average; [cbn; lia|cbn; lia|exact PQ|exact KZ]. }
    exact MW.
Qed.
Print Assumptions C75_wave.

(** ** C76: given pressure *)

(** A flat surface under given pressures, each of which moves it by at least
    the tolerance from where the solver starts: exactly these pressures,
    uniform, in full contact, without gap. *)
Theorem C76_flat : forall o rms callback a l calls p ar d g c n m lx ly h0,
  let k0 := (wavenumber [n; m] lx ly 1 0 + wavenumber [n; m] lx ly 0 1) / 4 in
  substrate_name a = "periodic"%string -> cm_pressures a = Some l -> is_plastic_run a = false ->
  0 < op_forcetol o -> 0 < op_thermotol o -> (3 <= cm_maxiter a)%nat ->
  sf_grid (cm_topography a) = [n; m] -> (2 <= n)%nat -> (2 <= m)%nat -> cm_sizes a = [lx; ly] -> 0 < lx -> 0 < ly ->
  (forall i j, (i < n)%nat -> (j < m)%nat -> a_val (heights (cm_topography a)) i j = h0) ->
  (forall x, In x l -> 0 < x /\ tolerance rms a <= Rabs (x / k0 - Rmax 0 h0)) ->
  contact_mechanics (ccg_solver o) rms callback a = (calls, Ret (p, ar, d, g, c)) ->
  p = l /\ ar = map (fun _ => 1) l /\ d = map (fun x => x / k0 - h0) l /\ c = map (fun _ => true) l /\ g = map (fun _ => 0) l
  /\ forall k out x, nth_error calls k = Some out -> nth_error l k = Some x ->
     forall i j, (i < n)%nat -> (j < m)%nat -> a_val (out_pressure out) i j = x /\ a_val (out_disp out) i j = x / k0.
Proof.
  intros o rms callback a l calls p ar d g c n m lx ly h0 k0 NM OL EL T1 T2 MI G N M SZ X Y HF CD H.
  change k0 with (uniform_stiffness [n; m] lx ly) in *. clear k0.
  destruct (proj2 (one_mode _ _ _ _ _ _ H) l OL) as (NS0 & _ & RQ).
  destruct (elastic_steps _ _ _ _ _ _ _ _ _ _ _ _ _ _ NS0 EL H G SZ) as (LC & L1 & L2 & L5 & L3 & L4 & ST).
  rewrite RQ in *. pose proof (arrays_of l calls LC) as KM.
  assert (KP : 0 < uniform_stiffness [n; m] lx ly).
  { unfold uniform_stiffness. assert (0 < wavenumber [n; m] lx ly 1 0) by (apply wavenumber_pos; try assumption; [split; cbn; lia|lia]).
    assert (0 < wavenumber [n; m] lx ly 0 1) by (apply wavenumber_pos; try assumption; [split; cbn; lia|lia]). lra. }
  set (k0 := uniform_stiffness [n; m] lx ly) in *.
  assert (NP : 0 < INR (n * m)) by (apply lt_0_INR; nia).
  assert (AP : 0 < lx * ly) by (apply Rmult_lt_0_compat; assumption).
  assert (AP2 : 0 < lx * ly / INR (n * m)) by (apply Rdiv_lt_0_compat; assumption).
  assert (OKG : okgrid [n; m]) by (repeat split; cbn; lia).
  assert (K : forall i out, nth_error calls i = Some out -> exists x, nth_error l i = Some x
     /\ nth_error p i = Some x /\ nth_error ar i = Some 1 /\ nth_error d i = Some (x / k0 - h0) /\ nth_error c i = Some true
     /\ nth_error g i = Some 0
     /\ forall i j, (i < n)%nat -> (j < m)%nat -> a_val (out_pressure out) i j = x /\ a_val (out_disp out) i j = x / k0).
  { intros i out NO. destruct (ST i out NO) as (sb & sa & r & _ & XO & HS & AR & SV & SP & SM & C0 & C1 & C2 & C4 & C3 & _ & V1 & _ & V2).
    destruct (XO l OL) as (x & LX & SO & SF). exists x. split; [exact LX|].
    destruct (half_space_cases _ _ _ _ HS) as [(_ & hs & CH & SB)|(Q & _)]; [|rewrite NM in Q; discriminate].
    destruct (CD x (nth_error_In _ _ LX)) as [XP XT]. subst sb. change (sb_area (periodic hs)) with (area_per_pt (s_hs hs)) in AR.
    destruct (solver_flat o [n; m] [lx; ly] hs (cm_topography a) sa x h0 CH (positive_two _ _ X Y) eq_refl G) as (r' & E' & S' & O' & J').
    - exact KP.
    - split; [rewrite SP; apply tolerance_pos|auto].
    - exact SO.
    - rewrite SF, AR, size_two. f_equal. field. lra.
    - lia.
    - intros i' j' [I' J0]. apply HF; assumption.
    - exact XP.
    - rewrite SP. exact XT.
    - change (uniform_stiffness [n; m] (cell_size [lx; ly] 0) (cell_size [lx; ly] 1)) with k0 in O', J'.
      rewrite E' in SV. injection SV as <-. rewrite AR in J'.
      assert (JV : forall x0 y0, (x0 < n)%nat -> (y0 < m)%nat -> a_val (o_jac r') x0 y0 = x * (lx * ly / INR (n * m))).
      { intros x0 y0 I0 J0. apply (J' x0 y0 (conj I0 J0)). }
      assert (XV : forall x0 y0, (x0 < n)%nat -> (y0 < m)%nat -> a_val (o_x r') x0 y0 = x / k0).
      { intros x0 y0 I0 J0. apply (J' x0 y0 (conj I0 J0)). }
      assert (SUM : forall v, asum (mkArr [n; m] (fun _ _ => v)) = INR (n * m) * v).
      { intros v. rewrite asum_grid by exact OKG. unfold HalfSpace_Spec.total. rewrite Rsum2_const. cbn [gx gy nth]. rewrite mult_INR. ring. }
      destruct (amean_field n m _ _ ltac:(lia) ltac:(lia) JV) as (J1 & _ & J3). destruct (amean_field n m _ _ ltac:(lia) ltac:(lia) XV) as (_ & X2 & _).
      assert (HM : amean (heights (cm_topography a)) = h0).
      { unfold heights. rewrite G. destruct (amean_field n m _ _ ltac:(lia) ltac:(lia) HF) as (_ & HM & _).
        unfold heights in HM. cbn [a_val] in HM. rewrite HM. unfold amean. cbn [a_shape]. rewrite SUM, size_two. field. lra. }
      rewrite C0, C1, C2, C3, C4, J1, J3, X2, S', O', HM, SUM. repeat split.
      + f_equal. field. lra.
      + f_equal. unfold count_positive, amap. cbn [a_shape a_val].
        destruct (Rlt_dec 0 (x * (lx * ly / INR (n * m)))) as [_|NN]; [|exfalso; apply NN; apply Rmult_lt_0_compat; assumption].
        rewrite SUM. field. lra.
      + f_equal. unfold amean. cbn [a_shape]. rewrite SUM, size_two. field. lra.
      + rewrite V2, JV by assumption. field. repeat split; lra.
      + rewrite V1. apply XV; assumption. }
  split; [|split; [|split; [|split; [|split]]]].
  - rewrite <- (map_id l). apply KM; [exact L1|]. intros i out x NO NX. destruct (K i out NO) as (x' & ? & ? & _). congruence.
  - apply KM; [exact L2|]. intros i out x NO NX. destruct (K i out NO) as (x' & ? & ? & ? & _). assumption.
  - apply KM; [exact L5|]. intros i out x NO NX. destruct (K i out NO) as (x' & ? & ? & ? & ? & _). congruence.
  - apply KM; [exact L4|]. intros i out x NO NX. destruct (K i out NO) as (x' & ? & ? & ? & ? & ? & _). assumption.
  - apply KM; [exact L3|]. intros i out x NO NX. destruct (K i out NO) as (x' & ? & ? & ? & ? & ? & ? & _). assumption.
  - intros k out x NO NX. destruct (K k out NO) as (x' & N' & _ & _ & _ & _ & _ & V). rewrite NX in N'. injection N' as <-. exact V.
Qed.
Print Assumptions C76_flat.

(** "The contact area of a light load is small" is false: if no height is
    positive, every pressure below [k0] times the tolerance is reported as
    converged and carried by all points, wherever they are. *)
Theorem C76_light_load : forall o rms callback a l calls p ar d g c n m lx ly,
  let k0 := (wavenumber [n; m] lx ly 1 0 + wavenumber [n; m] lx ly 0 1) / 4 in
  substrate_name a = "periodic"%string -> cm_pressures a = Some l -> is_plastic_run a = false ->
  0 < op_forcetol o -> 0 < op_thermotol o -> (1 <= cm_maxiter a)%nat ->
  sf_grid (cm_topography a) = [n; m] -> (2 <= n)%nat -> (2 <= m)%nat -> cm_sizes a = [lx; ly] -> 0 < lx -> 0 < ly ->
  (forall i j, (i < n)%nat -> (j < m)%nat -> a_val (heights (cm_topography a)) i j <= 0) ->
  (forall x, In x l -> 0 < x < k0 * tolerance rms a) ->
  contact_mechanics (ccg_solver o) rms callback a = (calls, Ret (p, ar, d, g, c)) ->
  p = l /\ ar = map (fun _ => 1) l /\ d = map (fun _ => 0) l /\ c = map (fun _ => true) l
  /\ forall k out x, nth_error calls k = Some out -> nth_error l k = Some x ->
     forall i j, (i < n)%nat -> (j < m)%nat -> a_val (out_pressure out) i j = x /\ a_val (out_disp out) i j = x / k0.
Proof.
  intros o rms callback a l calls p ar d g c n m lx ly k0 NM OL EL T1 T2 MI G N M SZ X Y HF CD H.
  change k0 with (uniform_stiffness [n; m] lx ly) in *. clear k0.
  destruct (proj2 (one_mode _ _ _ _ _ _ H) l OL) as (NS0 & _ & RQ).
  destruct (elastic_steps _ _ _ _ _ _ _ _ _ _ _ _ _ _ NS0 EL H G SZ) as (LC & L1 & L2 & L5 & _ & L4 & ST).
  rewrite RQ in *. pose proof (arrays_of l calls LC) as KM.
  assert (KP : 0 < uniform_stiffness [n; m] lx ly).
  { unfold uniform_stiffness. assert (0 < wavenumber [n; m] lx ly 1 0) by (apply wavenumber_pos; try assumption; [split; cbn; lia|lia]).
    assert (0 < wavenumber [n; m] lx ly 0 1) by (apply wavenumber_pos; try assumption; [split; cbn; lia|lia]). lra. }
  set (k0 := uniform_stiffness [n; m] lx ly) in *.
  assert (NP : 0 < INR (n * m)) by (apply lt_0_INR; nia).
  assert (AP : 0 < lx * ly) by (apply Rmult_lt_0_compat; assumption).
  assert (AP2 : 0 < lx * ly / INR (n * m)) by (apply Rdiv_lt_0_compat; assumption).
  assert (OKG : okgrid [n; m]) by (repeat split; cbn; lia).
  assert (K : forall i out, nth_error calls i = Some out -> exists x, nth_error l i = Some x
     /\ nth_error p i = Some x /\ nth_error ar i = Some 1 /\ nth_error d i = Some 0 /\ nth_error c i = Some true
     /\ forall i j, (i < n)%nat -> (j < m)%nat -> a_val (out_pressure out) i j = x /\ a_val (out_disp out) i j = x / k0).
  { intros i out NO. destruct (ST i out NO) as (sb & sa & r & _ & XO & HS & AR & SV & SP & SM & C0 & C1 & C2 & C4 & C3 & _ & V1 & _ & V2).
    destruct (XO l OL) as (x & LX & SO & SF). exists x. split; [exact LX|].
    destruct (half_space_cases _ _ _ _ HS) as [(_ & hs & CH & SB)|(Q & _)]; [|rewrite NM in Q; discriminate].
    destruct (CD x (nth_error_In _ _ LX)) as [XP XT]. subst sb. change (sb_area (periodic hs)) with (area_per_pt (s_hs hs)) in AR.
    destruct (solver_light_load o [n; m] [lx; ly] hs (cm_topography a) sa x CH (positive_two _ _ X Y) eq_refl G) as (r' & E' & S' & O' & J').
    - exact KP.
    - split; [rewrite SP; apply tolerance_pos|auto].
    - exact SO.
    - rewrite SF, AR, size_two. f_equal. field. lra.
    - lia.
    - intros i' j' [I' J0]. apply HF; assumption.
    - exact XP.
    - rewrite SP. exact XT.
    - change (uniform_stiffness [n; m] (cell_size [lx; ly] 0) (cell_size [lx; ly] 1)) with k0 in J'.
      rewrite E' in SV. injection SV as <-. rewrite AR in J'.
      assert (JV : forall x0 y0, (x0 < n)%nat -> (y0 < m)%nat -> a_val (o_jac r') x0 y0 = x * (lx * ly / INR (n * m))).
      { intros x0 y0 I0 J0. apply (J' x0 y0 (conj I0 J0)). }
      assert (XV : forall x0 y0, (x0 < n)%nat -> (y0 < m)%nat -> a_val (o_x r') x0 y0 = x / k0).
      { intros x0 y0 I0 J0. apply (J' x0 y0 (conj I0 J0)). }
      assert (SUM : forall v, asum (mkArr [n; m] (fun _ _ => v)) = INR (n * m) * v).
      { intros v. rewrite asum_grid by exact OKG. unfold HalfSpace_Spec.total. rewrite Rsum2_const. cbn [gx gy nth]. rewrite mult_INR. ring. }
      destruct (amean_field n m _ _ ltac:(lia) ltac:(lia) JV) as (J1 & _ & J3).
      rewrite C0, C1, C2, C4, J1, J3, S', O', SUM. repeat split.
      + f_equal. field. lra.
      + f_equal. unfold count_positive, amap. cbn [a_shape a_val].
        destruct (Rlt_dec 0 (x * (lx * ly / INR (n * m)))) as [_|NN]; [|exfalso; apply NN; apply Rmult_lt_0_compat; assumption].
        rewrite SUM. field. lra.
      + rewrite V2, JV by assumption. field. repeat split; lra.
      + rewrite V1. apply XV; assumption. }
  split; [|split; [|split; [|split]]].
  - rewrite <- (map_id l). apply KM; [exact L1|]. intros i out x NO NX. destruct (K i out NO) as (x' & ? & ? & _). congruence.
  - apply KM; [exact L2|]. intros i out x NO NX. destruct (K i out NO) as (x' & ? & ? & ? & _). assumption.
  - apply KM; [exact L5|]. intros i out x NO NX. destruct (K i out NO) as (x' & ? & ? & ? & ? & _). assumption.
  - apply KM; [exact L4|]. intros i out x NO NX. destruct (K i out NO) as (x' & ? & ? & ? & ? & ? & _). assumption.
  - intros k out x NO NX. destruct (K k out NO) as (x' & N' & _ & _ & _ & _ & V). rewrite NX in N'. injection N' as <-. exact V.
Qed.
Print Assumptions C76_light_load.

(** ** Examples *)

(** Heights [v] in the first row and [w] in the second, on a 2 x 2 grid of
    unit size; the standard deviation of the heights. *)
Definition rows (v w : R) : surface :=
  mkSurface [2; 2]%nat (fun i _ => if Nat.eqb i 0 then v else w) (fun _ _ => 0) 0 (1 / 4).
Definition rows_at (v w : R) (off press : option (list R)) : cm_args :=
  mkCm (rows v w) [1; 1] true false None None off press None 100.
Definition deviation (h : arr) : R :=
  sqrt (asum (amap (fun v => (v - amean h) ^ 2) h) / INR (size (a_shape h))).
Definition usual : options := mkOpt (1 / 100000) (1 / 100) (1 / 10) 1 10 (fun _ _ _ => None).

Lemma rows_k0 : (wavenumber [2; 2]%nat 1 1 1 0 + wavenumber [2; 2]%nat 1 1 0 1) / 4 = PI
  /\ wavenumber [2; 2]%nat 1 1 1 0 = 2 * PI.
Proof.
  unfold wavenumber. cbn [gx gy nth Nat.min Nat.sub INR].
  replace ((1 / 1) ^ 2 + (0 / 1) ^ 2) with 1 by field. replace ((0 / 1) ^ 2 + (1 / 1) ^ 2) with 1 by field.
  rewrite sqrt_1. split; lra.
Qed.
Lemma rows_deviation : forall v w, deviation (heights (rows v w)) = Rabs (v - w) / 2.
Proof.
  intros v w. unfold deviation. cbn [heights rows a_shape sf_grid].
  replace (_ / INR (size [2; 2]%nat)) with (((v - w) / 2) ^ 2).
  - rewrite <- Rsqr_pow2, sqrt_Rsqr_abs. unfold Rdiv. rewrite Rabs_mult, (Rabs_pos_eq (/ 2)) by lra. reflexivity.
  - unfold amean, asum, amap, heights, rows. cbn. field.
Qed.
Lemma rows_tolerance : forall v w off press, 1 <= Rabs (v - w) ->
  tolerance deviation (rows_at v w off press) = Rabs (v - w) / 40.
Proof.
  intros v w off press D. unfold tolerance. change (cm_topography (rows_at v w off press)) with (rows v w). rewrite rows_deviation.
  assert (E : Rabs (v - w) / 2 / (10 * (INR (fold_right Nat.add 0%nat (sf_grid (rows v w))) / INR (List.length (sf_grid (rows v w))))) = Rabs (v - w) / 40)
    by (cbn; field).
  rewrite E. destruct (Rle_dec _ _) as [L|_]; [|reflexivity]. exfalso. assert (/ 10 ^ 12 < 1 / 40) by lra. lra.
Qed.
Lemma rows_returns : forall v w off press rms, modes (rows_at v w off press) = 1%nat ->
  (1 <= requested (rows_at v w off press))%nat ->
  exists calls p ar d g c, contact_mechanics (ccg_solver usual) rms silent (rows_at v w off press) = (calls, Ret (p, ar, d, g, c)).
Proof.
  intros v w off press rms MD RQ.
  destruct (C74_returns usual rms silent (rows_at v w off press) 2 2 1 1) as (calls & [[[[p ar] d] g] c] & H);
    try assumption; try reflexivity; try (left; reflexivity); try (cbn; lia); try (intros l o; reflexivity).
  exists calls, p, ar, d, g, c. exact H.
Qed.
Lemma calls_nonempty : forall rms v w off press calls p ar d g c, (1 <= requested (rows_at v w off press))%nat ->
  contact_mechanics (ccg_solver usual) rms silent (rows_at v w off press) = (calls, Ret (p, ar, d, g, c)) ->
  cm_nsteps (rows_at v w off press) = None -> exists out, nth_error calls 0%nat = Some out.
Proof.
  intros rms v w off press calls p ar d g c RQ H NS.
  destruct (elastic_steps _ _ _ _ _ _ _ _ _ _ _ _ _ _ NS eq_refl H eq_refl eq_refl) as (L & _).
  destruct calls as [|out calls]; [cbn in L; cbn in *; lia|]. exists out. reflexivity.
Qed.

(** "A step that is reported as converged carries load only where the surfaces
    touch" is false, however far the surfaces are apart relative to the
    tolerance of the solver: here the lower row is [40] tolerances away and
    carries the full pressure. *)
Theorem C76_contact_refuted : exists a calls p ar d g c out,
  contact_mechanics (ccg_solver usual) deviation silent a = (calls, Ret (p, ar, d, g, c))
  /\ cm_pressures a = Some [1 / 20] /\ sf_grid (cm_topography a) = [2; 2]%nat
  /\ c = [true] /\ ar = [1] /\ d = [0] /\ nth_error calls 0%nat = Some out
  /\ a_val (out_pressure out) 1%nat 0%nat = 1 / 20
  /\ 40 * tolerance deviation a < a_val (out_disp out) 1%nat 0%nat - (a_val (heights (cm_topography a)) 1%nat 0%nat + 0).
Proof.
  set (a := rows_at 0 (-1) None (Some [1 / 20])).
  destruct (rows_returns 0 (-1) None (Some [1 / 20]) deviation eq_refl ltac:(cbn; lia)) as (calls & p & ar & d & g & c & H).
  destruct (calls_nonempty deviation 0 (-1) None (Some [1 / 20]) calls p ar d g c ltac:(cbn; lia) H eq_refl) as (out & NO).
  assert (TL : tolerance deviation a = 1 / 40).
  { unfold a. rewrite rows_tolerance; replace (0 - -1) with 1 by ring; rewrite Rabs_R1; lra. }
  destruct rows_k0 as [K0 _]. pose proof PI_RGT_0 as PP. assert (P2 : 2 < PI) by (pose proof PI2_1; lra).
  destruct (C76_light_load usual deviation silent a [1 / 20] calls p ar d g c 2 2 1 1) as (-> & -> & -> & -> & V);
    try reflexivity; try lra; try lia; try exact H; try (cbn; lra); try (cbn; lia).
  - intros i j Hi Hj. cbn. destruct (Nat.eqb i 0); lra.
  - intros x [<-|[]]. fold a. rewrite TL, K0. lra.
  - exists a, calls, [1 / 20], [1], [0], g, [true], out. repeat split; try assumption; try reflexivity.
    + apply (V 0%nat out (1 / 20) NO eq_refl); lia.
    + destruct (V 0%nat out (1 / 20) NO eq_refl 1%nat 0%nat ltac:(lia) ltac:(lia)) as [_ ->]. rewrite TL, K0. cbn.
      assert (0 < 1 / 20 / PI) by (apply Rdiv_lt_0_compat; lra). lra.
Qed.
Print Assumptions C76_contact_refuted.

(** Pressing a wave of amplitude [1/2] flat. *)
Example C75_nonvacuous :
  (exists calls p ar g c, contact_mechanics (ccg_solver usual) deviation silent (rows_at (1 / 2) (- 1 / 2) (Some [1; 2]) None)
     = (calls, Ret (p, ar, [1; 2], g, c)) /\ p = [PI; 2 * PI] /\ ar = [1; 1] /\ c = [true; true]
     /\ exists out, nth_error calls 0%nat = Some out /\ a_val (out_pressure out) 0%nat 0%nat = 3 / 2 * PI /\ a_val (out_pressure out) 1%nat 0%nat = PI / 2)
  /\ (exists calls p ar g c, contact_mechanics (ccg_solver usual) deviation silent (rows_at (1 / 2) (- 1 / 2) (Some [-1]) None)
     = (calls, Ret (p, ar, [-1], g, c)) /\ p = [0] /\ c = [true] /\ g = [1]).
Proof.
  destruct rows_k0 as [K0 K1]. pose proof PI_RGT_0 as PP. split.
  - destruct (rows_returns (1 / 2) (- 1 / 2) (Some [1; 2]) None deviation eq_refl ltac:(cbn; lia)) as (calls & p & ar & d & g & c & H).
    destruct (calls_nonempty deviation _ _ (Some [1; 2]) None calls p ar d g c ltac:(cbn; lia) H eq_refl) as (out & NO).
    destruct (C75_wave usual deviation silent (rows_at (1 / 2) (- 1 / 2) (Some [1; 2]) None) [1; 2] calls p ar d g c 2 2 1 1 1 0 0 (1 / 2) 0)
      as (-> & -> & -> & -> & _ & V); try reflexivity; try lra; try lia; try exact H; try (cbn; lra); try (cbn; lia).
    + intros i j Hi Hj. unfold plane_wave. cbn. destruct i as [|[|?]]; [| |lia]; cbn.
      * replace (2 * PI * (1 * 0 / (1 + 1) + 0 * INR j / (1 + 1)) + 0) with 0 by field. rewrite cos_0. lra.
      * replace (2 * PI * (1 * 1 / (1 + 1) + 0 * INR j / (1 + 1)) + 0) with PI by (field). rewrite cos_PI. lra.
    + intros x IX. rewrite K0, K1. rewrite (Rabs_pos_eq (1 / 2)) by lra. destruct IX as [<-|[<-|[]]]; lra.
    + exists calls. eexists. eexists. exists g. eexists. split; [exact H|]. rewrite K0. cbn [map]. split; [repeat (f_equal; try ring)|].
      split; [reflexivity|]. split; [reflexivity|]. exists out. split; [exact NO|].
      rewrite !(V 0%nat out 1 NO eq_refl) by lia. rewrite K0, K1. unfold plane_wave. cbn.
      replace (2 * PI * (1 * 0 / (1 + 1) + 0 * 0 / (1 + 1)) + 0) with 0 by field.
      replace (2 * PI * (1 * 1 / (1 + 1) + 0 * 0 / (1 + 1)) + 0) with PI by field. rewrite cos_0, cos_PI. split; field.
  - destruct (rows_returns (1 / 2) (- 1 / 2) (Some [-1]) None deviation eq_refl ltac:(cbn; lia)) as (calls & p & ar & d & g & c & H).
    destruct (C75_no_contact usual deviation silent (rows_at (1 / 2) (- 1 / 2) (Some [-1]) None) [-1] calls p ar d g c 2 2 1 1)
      as (-> & -> & -> & -> & -> & V); try reflexivity; try lra; try lia; try exact H; try (cbn; lra); try (cbn; lia).
    + intros x [<-|[]] i j Hi Hj. cbn. destruct (Nat.eqb i 0); lra.
    + exists calls. eexists. eexists. eexists. eexists. split; [exact H|]. repeat split. cbn [map]. f_equal.
      unfold amean, asum, heights, rows_at, rows. cbn. field.
Qed.

(** A flat surface above and below the undeformed half-space; the conclusion
    of [C74_pressures] for a converged step. *)
Example C76_nonvacuous : forall h0, h0 = 1 / 10 \/ h0 = -3 ->
  exists calls g, contact_mechanics (ccg_solver usual) deviation silent (rows_at h0 h0 None (Some [1; 2]))
     = (calls, Ret ([1; 2], [1; 1], [/ PI - h0; 2 / PI - h0], g, [true; true])).
Proof.
  intros h0 HH. destruct rows_k0 as [K0 _]. pose proof PI_RGT_0 as PP.
  destruct (rows_returns h0 h0 None (Some [1; 2]) deviation eq_refl ltac:(cbn; lia)) as (calls & p & ar & d & g & c & H).
  assert (TL : tolerance deviation (rows_at h0 h0 None (Some [1; 2])) = / 10 ^ 12).
  { unfold tolerance. cbn [cm_topography rows_at]. rewrite rows_deviation. replace (h0 - h0) with 0 by ring. rewrite Rabs_R0.
    destruct (Rle_dec _ _) as [_|N]; [reflexivity|]. exfalso. apply N. unfold Rdiv. rewrite !Rmult_0_l. lra. }
  assert (PB : / 4 <= / PI). { apply Rinv_le_contravar; [lra|]. pose proof PI_4. lra. }
  destruct (C76_flat usual deviation silent (rows_at h0 h0 None (Some [1; 2])) [1; 2] calls p ar d g c 2 2 1 1 h0)
    as (-> & -> & -> & -> & _ & V); try reflexivity; try lra; try lia; try exact H; try (cbn; lra); try (cbn; lia).
  - intros i j Hi Hj. cbn. destruct (Nat.eqb i 0); lra.
  - intros x IX. rewrite TL, K0.
    assert (MX : Rmax 0 h0 <= 1 / 10) by (apply Rmax_lub; lra).
    assert (XP : 1 <= x) by (destruct IX as [<-|[<-|[]]]; lra). split; [lra|].
    rewrite Rabs_pos_eq; [|assert (/ PI <= x / PI) by (unfold Rdiv; nra); lra].
    assert (/ PI <= x / PI) by (unfold Rdiv; nra). lra.
  - exists calls, g. rewrite H. cbn [map]. rewrite K0. repeat f_equal. field. lra.
Qed.

(** Runs to which C74 applies, on both half-spaces; one of them converges
    under load (C75_nonvacuous, C76_nonvacuous). *)
Example C74_nonvacuous : forall b l, (1 <= List.length l)%nat ->
  let a := mkCm (rows (1 / 2) (- 1 / 2)) [1; 1] b false None None (Some l) None None 100 in
  substrate_name a = (if b then "periodic"%string else "nonperiodic"%string) /\ 0 <= sf_area (cm_topography a)
  /\ exists calls p ar g c, contact_mechanics (ccg_solver usual) deviation silent a = (calls, Ret (p, ar, l, g, c))
     /\ List.length calls = List.length l.
Proof.
  intros b l L a. split; [destruct b; reflexivity|]. split; [cbn; lra|].
  destruct (C74_returns usual deviation silent a 2 2 1 1) as (calls & [[[[p ar] d] g] c] & H);
    try reflexivity; try (left; reflexivity); try (cbn; lia); try (intros ? ?; reflexivity).
  - destruct b; [left|right]; reflexivity.
  - pose proof (C74_offsets _ _ _ a l _ _ _ _ _ _ eq_refl H) as ->. exists calls, p, ar, g, c. split; [exact H|].
    destruct (elastic_steps _ _ _ a _ _ _ _ _ _ _ _ _ _ eq_refl eq_refl H eq_refl eq_refl) as (K & _). exact K.
Qed.
