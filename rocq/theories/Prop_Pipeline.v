(** * Properties of the pipeline function (C48-C51)

    [solver] is an arbitrary minimisation, [rms] an arbitrary function and
    [callback] an arbitrary results callback that may raise.  The first
    component of [contact_mechanics] lists what the callback was called with. *)
From Coq Require Import Reals ZArith Lia Lra List Arith Bool String Permutation FunctionalExtensionality.
From Verif Require Import Py FFT_Base HalfSpace_Model Free_Model Systems_Model Factory_Model Pipeline_Model Pipeline_Spec
  Pipeline_Proofs Pipeline_Sort Pipeline_Results Pipeline_More Pipeline_Out.
From Coq Require Import List.
Import ListNotations.
Local Open Scope R_scope.

(** ** C48: exactly one control mode *)
Definition count (b : bool) : nat := if b then 1%nat else 0%nat.
Definition is_given {A} (o : option A) : bool := match o with Some _ => true | None => false end.
Definition modes (a : cm_args) : nat :=
  (count (is_given (cm_nsteps a)) + count (is_given (cm_offsets a)) + count (is_given (cm_pressures a)))%nat.

Lemma mode_ok_modes : forall a, mode_ok a = true <-> modes a = 1%nat.
Proof.
  intros a. unfold mode_ok, modes. destruct (cm_nsteps a), (cm_offsets a), (cm_pressures a); cbn; split; congruence.
Qed.

Theorem C48_one_mode : forall solver rms callback a, modes a <> 1%nat ->
  contact_mechanics solver rms callback a = ([], Exc ValueErr).
Proof.
  intros solver rms callback a H. unfold contact_mechanics.
  destruct (mode_ok a) eqn:E; [apply mode_ok_modes in E; congruence|reflexivity].
Qed.
Print Assumptions C48_one_mode.

(** A solver that returns arrays of the size of the surface, for the arguments
    it can get here. *)
Definition solves (a : cm_args) (solver : substrate -> surface -> option R -> solver_args -> res oresult) : Prop :=
  forall sb sf h sa n m, make_half_space (substrate_name a) [n; m] (cm_sizes a) = Ret sb -> sf_grid sf = [n; m] ->
    sa_maxiter sa = cm_maxiter a -> (is_plastic_run a = false -> h = None) -> (sa_force sa <> None -> cm_pressures a <> None) ->
    exists r n' m',
    solver sb sf h sa = Ret r /\ a_shape (o_jac r) = [n; m] /\ a_shape (o_x r) = [n'; m'] /\ (n <= n')%nat /\ (m <= m')%nat.

(** With one mode, a known substrate and something to do the function
    returns. *)
Theorem C48_accepted : forall solver rms callback a n m lx ly, modes a = 1%nat ->
  sf_grid (cm_topography a) = [n; m] -> cm_sizes a = [lx; ly] -> (2 <= n)%nat -> (2 <= m)%nat ->
  (substrate_name a = "periodic"%string \/ substrate_name a = "nonperiodic"%string) ->
  (1 <= requested a)%nat -> solves a solver -> quiet callback ->
  exists calls arr, contact_mechanics solver rms callback a = (calls, Ret arr).
Proof.
  intros solver rms callback a n m lx ly MO G SZ N M NM RQ SV Q. apply mode_ok_modes in MO.
  rewrite (cm_run _ _ _ _ MO), G, SZ.
  destruct (half_space_ok (substrate_name a) n m lx ly) as (sb & HS & T).
  { destruct NM as [->| ->]; [left|right]; repeat split; lia. }
  rewrite HS. destruct (half_space_inv _ _ _ _ HS) as (_ & _ & _ & _ & CK). rewrite <- SZ.
  destruct (surface_heights a) as [_ HG].
  destruct (run_ok solver sb (cm_sizes a) (is_plastic_run a) (is_plastic_run a || cm_is_plastic a) (tolerance rms a) (cm_maxiter a)
    callback n m ltac:(lia) ltac:(lia) T CK (cm_pressures a <> None)
    (fun sf h sa E => SV sb sf h sa n m ltac:(rewrite SZ; exact HS) E) Q (commands a) None [] fresh (cm_surface a))
    as (w' & calls & h & R' & NE & _); [congruence| |].
  { intros f IF. unfold commands in IF. destruct (cm_offsets a) as [l|]; [apply in_map_iff in IF; destruct IF as (? & ? & _); discriminate|].
    destruct (cm_pressures a) as [l|]; [discriminate|]. destruct (cm_nsteps a); [|destruct IF].
    apply repeat_spec in IF. discriminate. }
  rewrite R'. destruct h as [h|]; [eauto|]. exfalso. apply NE; [|reflexivity].
  intro Z. apply (f_equal (@List.length _)) in Z. unfold requested in RQ. unfold commands in Z.
  destruct (cm_offsets a); [rewrite map_length in Z; cbn in Z; lia|].
  destruct (cm_pressures a); [rewrite map_length in Z; cbn in Z; lia|].
  destruct (cm_nsteps a); [rewrite repeat_length in Z; cbn in Z; lia|]. lia.
Qed.
Print Assumptions C48_accepted.

(** A substrate name that is not one of the two is a KeyError, and nothing is
    calculated. *)
Theorem C48_unknown_substrate : forall solver rms callback a s, modes a = 1%nat -> cm_substrate a = Some s ->
  s <> "periodic"%string -> s <> "nonperiodic"%string ->
  contact_mechanics solver rms callback a = ([], Exc KeyErr).
Proof.
  intros solver rms callback a s MO S P NP. apply mode_ok_modes in MO. rewrite (cm_run _ _ _ _ MO).
  unfold substrate_name. rewrite S. unfold make_half_space.
  destruct (String.eqb_spec s "periodic"); [congruence|]. destruct (String.eqb_spec s "nonperiodic"); [congruence|]. reflexivity.
Qed.
Print Assumptions C48_unknown_substrate.

(** Without a name the periodicity of the topography decides. *)
Theorem C48_default_substrate : forall solver rms callback a,
  contact_mechanics solver rms callback (set_substrate None a)
  = contact_mechanics solver rms callback
      (set_substrate (Some (if cm_periodic a then "periodic" else "nonperiodic")%string) a).
Proof. reflexivity. Qed.
Print Assumptions C48_default_substrate.

(** Nothing to do: an exception, never empty arrays. *)
Theorem C48_no_steps : forall solver rms callback a, requested a = 0%nat ->
  exists e, contact_mechanics solver rms callback a = ([], Exc e).
Proof.
  intros solver rms callback a H. destruct (contact_mechanics solver rms callback a) as [calls r] eqn:E.
  destruct (mode_ok a) eqn:MO.
  - rewrite (cm_run _ _ _ _ MO) in E. destruct (make_half_space _ _ _) as [sb|e]; [|injection E as <- <-; eauto].
    assert (C : commands a = []).
    { unfold requested in H. unfold commands. destruct (cm_offsets a) as [[|? ?]|]; try discriminate; [reflexivity|].
      destruct (cm_pressures a) as [[|? ?]|]; try discriminate; [reflexivity|]. destruct (cm_nsteps a); [rewrite H|]; reflexivity. }
    rewrite C in E. cbn [run] in E. injection E as <- <-. eauto.
  - unfold contact_mechanics in E. rewrite MO in E. injection E as <- <-. eauto.
Qed.
Print Assumptions C48_no_steps.

(** The documented ValueError for unknown substrates does not exist. *)
Theorem C48_value_error_refuted : exists solver rms callback a,
  modes a = 1%nat /\ cm_substrate a = Some "semiperiodic"%string
  /\ snd (contact_mechanics solver rms callback a) <> Exc ValueErr.
Proof.
  exists (fun _ _ _ _ => Exc RuntimeErr), (fun _ => 0), (fun _ _ => Ret tt),
    (mkCm (mkSurface [2; 2]%nat (fun _ _ => 0) (fun _ _ => 0) 0 1) [1; 1] true false (Some "semiperiodic"%string) (Some 3%Z) None None None 100).
  split; [reflexivity|]. split; [reflexivity|]. rewrite (C48_unknown_substrate _ _ _ _ "semiperiodic"%string) by (reflexivity || discriminate).
  discriminate.
Qed.
Print Assumptions C48_value_error_refuted.

(** ** C49: one record per step, in order *)

(** Whatever happens, the callback got the outputs of the finished steps in
    order, and each of these is what the solver made of the requested value
    (see [explains]).  If the function returns, every requested value was
    calculated and the five arrays have one entry per step. *)
Theorem C49_records : forall solver rms callback a calls r,
  contact_mechanics solver rms callback a = (calls, r) ->
  exists ss, calls = map dn_out ss
    /\ (ss = [] \/ exists sb, explains solver rms a sb ss)
    /\ (List.length ss <= requested a)%nat
    /\ (forall arr, r = Ret arr -> ss <> [] /\ List.length ss = requested a /\ arr = returned ss).
Proof.
  intros solver rms callback a calls r H.
  destruct (explained _ _ _ _ _ _ H) as (ss & A & B & C). exists ss. split; [exact A|]. split; [exact B|]. split; [|exact C].
  destruct B as [->|[sb E]]; [cbn; lia|]. destruct ss as [|s0 ss0]; [cbn; lia|].
  assert (X : exists s, nth_error (s0 :: ss0) (List.length ss0) = Some s).
  { destruct (nth_error (s0 :: ss0) (List.length ss0)) eqn:Z; [eauto|]. apply nth_error_None in Z. cbn in Z. lia. }
  destruct X as [s N]. change (List.length (s0 :: ss0)) with (S (List.length ss0)). unfold requested.
  destruct (cm_offsets a) as [l|] eqn:O; [apply (ex_offsets _ _ _ _ _ E l O) in N; lia|].
  destruct (cm_pressures a) as [l|] eqn:P; [apply (ex_pressures _ _ _ _ _ E l P) in N; lia|].
  destruct (cm_nsteps a) as [n|] eqn:NS; [apply (ex_nsteps _ _ _ _ _ E n NS) in N; lia|].
  exfalso. assert (modes a <> 1%nat) by (unfold modes; rewrite O, P, NS; discriminate).
  rewrite (C48_one_mode _ _ _ _ H0) in H. injection H as H _. rewrite <- H in A. discriminate.
Qed.
Print Assumptions C49_records.

(** Each call of the callback returned, except that the last one may have
    ended the run with its exception. *)
Theorem C49_callback : forall solver rms callback a calls r,
  contact_mechanics solver rms callback a = (calls, r) ->
  forall pre o post, calls = pre ++ o :: post ->
    (exists u, callback pre o = Ret u) \/ (post = [] /\ exists e, callback pre o = Exc e /\ r = Exc e).
Proof.
  intros solver rms callback a calls r H pre o post E. destruct (mode_ok a) eqn:MO.
  - rewrite (cm_run _ _ _ _ MO) in H. destruct (make_half_space _ _ _) as [sb|e]; [|injection H as <- <-; destruct pre; discriminate].
    destruct (run _ _ _ _ _ _ _ _ _ _ _ _) as [[w' calls'] r'] eqn:RN.
    destruct (run_callback _ _ _ _ _ _ _ _ _ _ _ _ _ _ _ RN) as (outs & C & F). cbn [app] in C, F. subst calls'.
    assert (CC : calls = outs) by (destruct r' as [[h|]|e]; injection H as <- _; reflexivity). subst outs.
    destruct (F pre o post E) as [X|(P & e & X & Y)]; [left; exact X|right]. split; [exact P|]. exists e. split; [exact X|].
    subst r'. congruence.
  - unfold contact_mechanics in H. rewrite MO in H. injection H as <- <-. destruct pre; discriminate.
Qed.
Print Assumptions C49_callback.

(** Solvers that work at the given offset: the displacements are the offsets. *)
Definition keeps_offset (solver : substrate -> surface -> option R -> solver_args -> res oresult) : Prop :=
  forall sb sf h sa r x, solver sb sf h sa = Ret r -> sa_offset sa = Some x -> sa_force sa = None -> o_offset r = x.
Theorem C49_offsets : forall solver rms callback a l calls p ar d g c,
  keeps_offset solver ->
  cm_offsets a = Some l -> contact_mechanics solver rms callback a = (calls, Ret (p, ar, d, g, c)) -> d = l.
Proof.
  intros solver rms callback a l calls p ar d g c K O H.
  destruct (C49_records _ _ _ _ _ _ H) as (ss & _ & [->|[sb E]] & _ & F); destruct (F _ eq_refl) as (NE & L & A); [congruence|].
  injection A as _ _ -> _ _. unfold requested in L. rewrite O in L.
  apply nth_error_ext_map; [exact L|]. intros i s N. destruct (ex_offsets _ _ _ _ _ E l O i s N) as (I & X & X').
  destruct (nth_error l i) as [x|] eqn:LX; [|apply nth_error_None in LX; lia].
  f_equal. symmetry. eapply K; [|exact X|exact X']. apply (ex_solver _ _ _ _ _ E). eapply nth_error_In; exact N.
Qed.
Print Assumptions C49_offsets.

(** Solvers that balance the given force: the mean pressures are the requested
    ones. *)
Theorem C49_pressures : forall solver rms callback a l calls p ar d g c,
  (forall sb sf h sa r f, solver sb sf h sa = Ret r -> sa_force sa = Some f -> asum (o_jac r) = f) ->
  fold_right Rmult 1 (cm_sizes a) <> 0 ->
  cm_pressures a = Some l -> contact_mechanics solver rms callback a = (calls, Ret (p, ar, d, g, c)) -> p = l.
Proof.
  intros solver rms callback a l calls p ar d g c K NZ O H.
  assert (NO : cm_offsets a = None).
  { destruct (mode_ok a) eqn:MO; [|unfold contact_mechanics in H; rewrite MO in H; discriminate].
    unfold mode_ok in MO. rewrite O in MO. destruct (cm_nsteps a), (cm_offsets a); congruence. }
  destruct (C49_records _ _ _ _ _ _ H) as (ss & _ & [->|[sb E]] & _ & F); destruct (F _ eq_refl) as (NE & L & A); [congruence|].
  injection A as -> _ _ _ _. unfold requested in L. rewrite NO, O in L.
  apply nth_error_ext_map; [exact L|]. intros i s N. destruct (ex_pressures _ _ _ _ _ E l O i s N) as (I & X & _).
  destruct (nth_error l i) as [x|] eqn:LX; [|apply nth_error_None in LX; lia]. cbn [option_map] in X.
  assert (IN : In s ss) by (eapply nth_error_In; exact N).
  pose proof (K _ _ _ _ _ _ (ex_solver _ _ _ _ _ E s IN) X) as Y.
  destruct (ex_output _ _ _ _ _ E s IN) as (n0 & n1 & dd & _ & _ & _ & _ & _ & _ & _ & Z & _).
  rewrite Z, Y. f_equal. field. exact NZ.
Qed.
Print Assumptions C49_pressures.

(** The elastic steps do not influence each other: running two lists of
    offsets (pressures) one after the other is running them separately. *)
Theorem C49_independent : forall solver rms callback a l1 l2 c1 A1 c2 A2,
  is_plastic_run a = false -> quiet callback ->
  (contact_mechanics solver rms callback (set_offsets l1 a) = (c1, Ret A1) ->
   contact_mechanics solver rms callback (set_offsets l2 a) = (c2, Ret A2) ->
   contact_mechanics solver rms callback (set_offsets (l1 ++ l2) a) = (c1 ++ c2, Ret (join A1 A2)))
  /\ (contact_mechanics solver rms callback (set_pressures l1 a) = (c1, Ret A1) ->
      contact_mechanics solver rms callback (set_pressures l2 a) = (c2, Ret A2) ->
      contact_mechanics solver rms callback (set_pressures (l1 ++ l2) a) = (c1 ++ c2, Ret (join A1 A2))).
Proof.
  intros solver rms callback a l1 l2 c1 A1 c2 A2 P Q. split; intros H1 H2;
    rewrite cm_finish in H1, H2 |- * by reflexivity;
    (destruct (make_half_space _ _ _) as [sb|e] eqn:HS in H1; [|discriminate]);
    change (make_half_space _ _ _) with (make_half_space (substrate_name a) (sf_grid (cm_topography a)) (cm_sizes a)) in HS, H2 |- *;
    rewrite HS in H2 |- *; unfold commands in *;
    cbn [cm_offsets cm_pressures cm_nsteps set_offsets set_pressures cm_sizes] in *; rewrite map_app;
    eapply finish_join; try eassumption; intros c I; apply in_app_or in I; destruct I as [I|I]; apply in_map_iff in I;
    destruct I as (? & <- & _); discriminate.
Qed.
Print Assumptions C49_independent.

(** A shorter request is a prefix of a longer one, for elastic and plastic
    runs and all three modes. *)
Theorem C49_prefix : forall solver rms callback a,
  (forall n k c A, (0 < n)%Z -> (n <= k)%Z -> contact_mechanics solver rms callback (set_nsteps k a) = (c, Ret A) ->
    contact_mechanics solver rms callback (set_nsteps n a) = (firstn (Z.to_nat n) c, Ret (take (Z.to_nat n) A)))
  /\ (forall l l' c A, l <> [] -> contact_mechanics solver rms callback (set_offsets (l ++ l') a) = (c, Ret A) ->
    contact_mechanics solver rms callback (set_offsets l a) = (firstn (List.length l) c, Ret (take (List.length l) A)))
  /\ (forall l l' c A, l <> [] -> contact_mechanics solver rms callback (set_pressures (l ++ l') a) = (c, Ret A) ->
    contact_mechanics solver rms callback (set_pressures l a) = (firstn (List.length l) c, Ret (take (List.length l) A))).
Proof.
  intros solver rms callback a. repeat split.
  - intros n k c A N K H. rewrite cm_finish in H |- * by reflexivity.
    change (make_half_space _ _ _) with (make_half_space (substrate_name a) (sf_grid (cm_topography a)) (cm_sizes a)) in H |- *.
    destruct (make_half_space _ _ _) as [sb|e]; [|discriminate]. unfold commands in *.
    cbn [cm_offsets cm_pressures cm_nsteps set_nsteps] in *.
    replace (Z.to_nat k) with (Z.to_nat n + (Z.to_nat k - Z.to_nat n))%nat in H by lia. rewrite repeat_app in H.
    apply finish_prefix in H; [rewrite repeat_length in H; exact H|]. destruct (Z.to_nat n) eqn:Z; [lia|discriminate].
  - intros l l' c A N H. rewrite cm_finish in H |- * by reflexivity.
    change (make_half_space _ _ _) with (make_half_space (substrate_name a) (sf_grid (cm_topography a)) (cm_sizes a)) in H |- *.
    destruct (make_half_space _ _ _) as [sb|e]; [|discriminate]. unfold commands in *.
    cbn [cm_offsets cm_pressures cm_nsteps set_offsets] in *. rewrite map_app in H.
    apply finish_prefix in H; [rewrite map_length in H; exact H|]. destruct l; [congruence|discriminate].
  - intros l l' c A N H. rewrite cm_finish in H |- * by reflexivity.
    change (make_half_space _ _ _) with (make_half_space (substrate_name a) (sf_grid (cm_topography a)) (cm_sizes a)) in H |- *.
    destruct (make_half_space _ _ _) as [sb|e]; [|discriminate]. unfold commands in *.
    cbn [cm_offsets cm_pressures cm_nsteps set_pressures] in *. rewrite map_app in H.
    apply finish_prefix in H; [rewrite map_length in H; exact H|]. destruct l; [congruence|discriminate].
Qed.
Print Assumptions C49_prefix.

(** "Sorted by displacement" is false for the automatic mode: on every
    surface that is not flat the second displacement is below the first. *)
Theorem C49_sorted_refuted : forall solver rms callback a n calls p ar d g c top,
  keeps_offset solver ->
  cm_nsteps a = Some n -> (2 <= n)%Z -> is_plastic_run a = false -> cm_is_plastic a = false ->
  is_max (heights (cm_topography a)) top -> amean (heights (cm_topography a)) < top ->
  contact_mechanics solver rms callback a = (calls, Ret (p, ar, d, g, c)) ->
  nth 1 d 0 < nth 0 d 0.
Proof.
  intros solver rms callback a n calls p ar d g c top K NS N2 PL IP MX NF H.
  destruct (contact_mechanics solver rms callback a) as [calls0 r0] eqn:H0. injection H as <- ->.
  assert (MO : mode_ok a = true) by (destruct (mode_ok a) eqn:MO; [reflexivity|]; unfold contact_mechanics in H0; rewrite MO in H0; discriminate).
  rewrite cm_run in H0 by exact MO.
  destruct (make_half_space _ _ _) as [sb|e] eqn:HS; [|discriminate].
  destruct (run _ _ _ _ _ _ _ _ _ _ _ _) as [[w' calls'] r'] eqn:RN.
  destruct (run_spec _ _ _ _ _ _ _ _ _ _ _ _ _ _ _ RN) as (ss & ST & C & F). cbn [snd] in ST.
  destruct r' as [[h|]|e]; try discriminate. destruct (F _ eq_refl) as [L E]. symmetry in E. pose proof (extend_all_none _ _ E) as EE.
  assert (D : d = map (fun s => out_offset (dn_out s)) ss) by (rewrite EE in H0; cbn in H0; congruence).
  assert (CM : commands a = repeat Automatic (Z.to_nat n)).
  { unfold commands. unfold mode_ok in MO. rewrite NS in *. destruct (cm_offsets a), (cm_pressures a); try discriminate. reflexivity. }
  rewrite CM, repeat_length in L. rewrite CM in ST. destruct (Z.to_nat n) as [|[|n']] eqn:ZN; [lia|lia|].
  destruct ss as [|s0 [|s1 ss]]; try discriminate. cbn [repeat steps_of] in ST. destruct ST as (S0 & S1 & _).
  assert (SU : cm_surface a = cm_topography a) by (apply surface_elastic; exact PL).
  cbn [step_of] in S0, S1. rewrite PL, IP in S0, S1. cbn [orb reset_plastic] in S0, S1.
  destruct S0 as (B0 & t0 & b0 & T0 & _ & O0). destruct S1 as (B1 & t1 & b1 & T1 & _ & O1).
  pose proof (outcome_output _ _ _ _ _ _ _ _ _ O0) as G0. pose proof (outcome_output _ _ _ _ _ _ _ _ _ O1) as G1.
  destruct G0 as (_ & _ & _ & _ & _ & _ & _ & _ & _ & X0 & _). destruct G1 as (_ & _ & _ & _ & _ & _ & _ & _ & _ & X1 & _).
  destruct O0 as (? & ? & ? & A0 & Y0 & _ & Z0 & _). destruct O1 as (? & ? & ? & A1 & Y1 & _).
  pose proof (K _ _ _ _ _ _ Y0 (f_equal sa_offset A0) (f_equal sa_force A0)) as K0. pose proof (K _ _ _ _ _ _ Y1 (f_equal sa_offset A1) (f_equal sa_force A1)) as K1.
  rewrite D. cbn [map nth]. rewrite X0, X1, K0, K1. cbn [next_displacement extend h_disps app].
  rewrite (proj1 Z0 eq_refl), B0, SU in B1. rewrite B1 in *. rewrite B0, SU in *.
  assert (t1 = top).
  { apply amax_spec in T1. destruct T1 as [(k & KK & KE) M1]. destruct MX as [(k' & KK' & KE') M2].
    specialize (M1 k' KK'). specialize (M2 k KK). lra. }
  subst t1. unfold next_displacement. cbn. lra.
Qed.
Print Assumptions C49_sorted_refuted.

(** ** C50: choice of the next displacement *)

(** Every automatic step is calculated at the displacement [chosen] for the
    records of the steps before it, with highest, mean and lowest height of
    the surface. *)
Theorem C50_choice : forall solver rms callback a n calls r, cm_nsteps a = Some n ->
  contact_mechanics solver rms callback a = (calls, r) ->
  exists ss, calls = map dn_out ss /\ forall i s, nth_error ss i = Some s ->
    exists sb x top bot,
      solver sb (dn_before s) (hardness_of a) (dn_args s) = Ret (dn_opt s)
      /\ sa_offset (dn_args s) = Some x /\ sa_force (dn_args s) = None
      /\ is_max (heights (dn_before s)) top /\ is_min (heights (dn_before s)) bot
      /\ (is_plastic_run a = true -> heights (dn_before s) = heights (cm_topography a))
      /\ chosen top (amean (heights (dn_before s))) bot (size (sf_grid (cm_topography a)))
           (map (fun s => (o_offset (dn_opt s), out_area (dn_out s))) (firstn i ss)) x.
Proof.
  intros solver rms callback a n calls r NS H. destruct (C49_records _ _ _ _ _ _ H) as (ss & A & B & _).
  exists ss. split; [exact A|]. intros i s N. destruct B as [->|[sb E]]; [destruct i; discriminate|].
  destruct (ex_nsteps _ _ _ _ _ E n NS i s N) as (_ & FN & x & top & bot & X & T & Bt & C).
  assert (IN : In s ss) by (eapply nth_error_In; exact N).
  exists sb, x, top, bot. split; [apply (ex_solver _ _ _ _ _ E); exact IN|]. split; [exact X|]. split; [exact FN|]. split; [exact T|].
  split; [exact Bt|]. split; [|exact C]. intros PL. apply (ex_fresh _ _ _ _ _ E PL); [congruence|exact IN].
Qed.
Print Assumptions C50_choice.

(** The rule leaves no freedom. *)
Theorem C50_unique : forall top middle bot n records x y,
  chosen top middle bot n records x -> chosen top middle bot n records y -> x = y.
Proof. exact chosen_unique. Qed.
Print Assumptions C50_unique.

(** From the third step on: either the displacement of a record with the
    largest area is mirrored at it, or two records that are neighbours in area
    are bisected. *)
Theorem C50_cases : forall top middle bot n records x, (2 <= List.length records)%nat ->
  chosen top middle bot n records x ->
  (exists p, In p records /\ (forall q, In q records -> snd q <= snd p) /\ x - fst p = fst p - bot)
  \/ (exists p q, In p records /\ In q records /\ snd p <= snd q /\ x = (fst p + fst q) / 2
      /\ forall r, In r records -> snd r <= snd p \/ snd q <= snd r).
Proof. exact chosen_cases. Qed.
Print Assumptions C50_cases.

(** Once full contact is recorded the rule bisects. *)
Theorem C50_bisects : forall top middle bot n records x, (0 < n)%nat -> (2 <= List.length records)%nat ->
  (forall p, In p records -> 0 <= snd p) -> (exists p, In p records /\ 1 <= snd p) ->
  chosen top middle bot n records x ->
  exists p q, In p records /\ In q records /\ x = (fst p + fst q) / 2.
Proof. exact chosen_bisects. Qed.
Print Assumptions C50_bisects.

(** A solver for examples: keeps the offset; the first row carries load. *)
Definition half_contact (sb : substrate) (sf : surface) (h : option R) (sa : solver_args) : res oresult :=
  Ret (mkOres true (mkArr (sf_grid sf) (fun _ _ => 0)) (mkArr (sf_grid sf) (fun i _ => if Nat.eqb i 0 then 1 else 0))
         (match sa_offset sa with Some x => x | None => 0 end) (fun _ _ => true)).
Definition silent : list output -> output -> res unit := fun _ _ => Ret tt.
(** Heights [c] and [c + 1] on a 2 x 2 grid. *)
Definition two_rows (c : R) : surface :=
  mkSurface [2; 2]%nat (fun i _ => if Nat.eqb i 0 then c + 1 else c) (fun _ _ => 0) 0 (1 / 4).
Definition ex_args (c : R) (hard : option R) (n : Z) : cm_args :=
  mkCm (two_rows c) [1; 1] true false None (Some n) None None hard 100.

Lemma half_contact_solves : forall a, solves a half_contact.
Proof.
  intros a sb sf h sa n m _ G _ _ _. eexists. exists n, m. split; [reflexivity|]. cbn. rewrite G. repeat split; lia.
Qed.
Lemma half_contact_offset : forall sb sf h sa r x, half_contact sb sf h sa = Ret r -> sa_offset sa = Some x -> o_offset r = x.
Proof. intros sb sf h sa r x H E. unfold half_contact in H. rewrite E in H. injection H as <-. reflexivity. Qed.
Lemma half_contact_keeps : keeps_offset half_contact.
Proof. intros sb sf h sa r x H E _. exact (half_contact_offset _ _ _ _ _ _ H E). Qed.

Lemma two_rows_facts : forall c, amean (heights (two_rows c)) = c + 1 / 2 /\ is_max (heights (two_rows c)) (c + 1)
  /\ is_min (heights (two_rows c)) c.
Proof.
  intros c. split; [|split].
  - unfold amean, asum, heights, two_rows. cbn. lra.
  - split; [exists 0%nat; cbn; split; [lia|lra]|]. intros k K. cbn in K. do 4 (destruct k as [|k]; [cbn; lra|]). lia.
  - split; [exists 2%nat; cbn; split; [lia|lra]|]. intros k K. cbn in K. do 4 (destruct k as [|k]; [cbn; lra|]). lia.
Qed.

Lemma runs : forall a, modes a = 1%nat -> sf_grid (cm_topography a) = [2; 2]%nat -> cm_sizes a = [1; 1] ->
  substrate_name a = "periodic"%string -> (1 <= requested a)%nat ->
  exists calls arr, contact_mechanics half_contact (fun _ => 0) silent a = (calls, Ret arr).
Proof.
  intros a M G S N RQ. apply (C48_accepted half_contact (fun _ => 0) silent a 2 2 1 1); auto.
  - apply half_contact_solves.
  - intros l o. reflexivity.
Qed.

(** The three displacements of a run on these rows. *)
Lemma three_steps : forall c, exists calls p ar g cv,
  contact_mechanics half_contact (fun _ => 0) silent (ex_args c None 3)
  = (calls, Ret (p, ar, [- (c + 1 / 2); - (c + 1) + 1 / 200; - 3 * c - 199 / 100], g, cv))
  /\ ar = [1 / 2; 1 / 2; 1 / 2].
Proof.
  intros c.
  destruct (runs (ex_args c None 3)) as (calls & [[[[p ar] d] g] cv] & H); try reflexivity; try (cbn; lia).
  exists calls, p, ar, g, cv.
  destruct (C49_records _ _ _ _ _ _ H) as (ss & CA & [->|[sb E]] & _ & F); destruct (F _ eq_refl) as (NE & L & A); [congruence|].
  cbn in L. destruct ss as [|s0 [|s1 [|s2 [|? ?]]]]; try discriminate. clear NE F L.
  assert (X : forall i s, nth_error [s0; s1; s2] i = Some s ->
     out_area (dn_out s) = 1 / 2 /\ chosen (c + 1) (c + 1 / 2) c 4 (map record_of (firstn i [s0; s1; s2])) (o_offset (dn_opt s))).
  { intros i s N. assert (IN : In s [s0; s1; s2]) by (eapply nth_error_In; exact N).
    destruct (ex_nsteps _ _ _ _ _ E 3%Z eq_refl i s N) as (_ & _ & x & top & bot & SX & T & B & C).
    pose proof (ex_solver _ _ _ _ _ E s IN) as S. rewrite (half_contact_offset _ _ _ _ _ _ S SX).
    assert (HB : dn_before s = two_rows c) by (apply (ex_elastic _ _ _ _ _ E eq_refl s IN); right; reflexivity).
    rewrite HB in *. destruct (two_rows_facts c) as (MN & MX & MI). rewrite MN in C.
    assert (top = c + 1) by (destruct T as [(k & K & KE) M1], MX as [(k' & K' & KE') M2]; specialize (M1 k' K'); specialize (M2 k K); lra).
    assert (bot = c) by (destruct B as [(k & K & KE) M1], MI as [(k' & K' & KE') M2]; specialize (M1 k' K'); specialize (M2 k K); lra).
    subst top bot. split; [|exact C].
    destruct (ex_output _ _ _ _ _ E s IN) as (n0 & n1 & dd & _ & _ & _ & _ & _ & _ & _ & _ & Z). rewrite Z, HB.
    unfold half_contact in S. injection S as S. rewrite <- S. unfold count_positive, asum, amap, two_rows. cbn.
    destruct (Rlt_dec 0 1); [|lra]. destruct (Rlt_dec 0 0); lra. }
  destruct (X 0%nat s0 eq_refl) as [A0 C0]. destruct (X 1%nat s1 eq_refl) as [A1 C1]. destruct (X 2%nat s2 eq_refl) as [A2 C2].
  cbn [firstn map chosen] in C0, C1. cbn [firstn map] in C2.
  unfold record_of in *. rewrite A0, A1, C0, C1 in *.
  assert (C3 : chosen (c + 1) (c + 1 / 2) c 4 [(- (c + 1 / 2), 1 / 2); (- (c + 1) + (c + 1 - (c + 1 / 2)) / 100, 1 / 2)] (- 3 * c - 199 / 100)).
  { cbn [chosen]. eexists [(- (c + 1 / 2), 1 / 2); (- (c + 1) + (c + 1 - (c + 1 / 2)) / 100, 1 / 2)]. exists 1%nat.
    split; [split; [apply Permutation_refl|split; [|reflexivity]]|].
    { intros i j IJ. cbn in IJ. replace i with 0%nat by lia. replace j with 1%nat by lia. cbn. lra. }
    split; [cbn; lia|]. split; [|split].
    - intros k K. cbn in K. destruct k as [|[|k]]; [|lra|lia]. unfold growth. cbn. lra.
    - intros k K. replace k with 0%nat by lia. unfold growth. cbn. lra.
    - cbn. lra. }
  pose proof (chosen_unique _ _ _ _ _ _ _ C2 C3) as C4.
  rewrite H. unfold returned in A. cbn [map] in A. injection A as -> -> -> -> ->. rewrite A0, A1, A2, C0, C1, C4. split; [|reflexivity].
  replace (- (c + 1) + (c + 1 - (c + 1 / 2)) / 100) with (- (c + 1) + 1 / 200) by lra. reflexivity.
Qed.

(** "Extends toward full contact" is false: on heights 10 and 11 with half of
    the area in contact the third displacement is so low that nothing touches
    (no height plus displacement is positive). *)
Theorem C50_extends_refuted : exists solver rms callback a calls p ar d g c,
  keeps_offset solver
  /\ contact_mechanics solver rms callback a = (calls, Ret (p, ar, d, g, c))
  /\ nth 0 ar 0 < 1 /\ nth 1 ar 0 < 1 /\ nth 2 d 0 < nth 0 d 0 /\ nth 2 d 0 < nth 1 d 0
  /\ forall top, is_max (heights (cm_topography a)) top -> top + nth 2 d 0 < 0.
Proof.
  destruct (three_steps 10) as (calls & p & ar & g & cv & H & AR).
  exists half_contact, (fun _ => 0), silent, (ex_args 10 None 3), calls, p, ar. eexists. exists g, cv.
  split; [exact half_contact_keeps|]. split; [exact H|]. rewrite AR. cbn [nth]. repeat split; try lra.
  intros top T. destruct (two_rows_facts 10) as (_ & MX & _). cbn [cm_topography ex_args] in T.
  destruct T as [(k & K & KE) M1], MX as [(k' & K' & KE') M2]; specialize (M1 k' K'); specialize (M2 k K); lra.
Qed.
Print Assumptions C50_extends_refuted.

(** The choice depends on the height reference: adding 10 to all heights moves
    the first two displacements by -10 and the third by -30. *)
Theorem C50_height_reference_refuted : exists solver rms callback calls calls' p ar d g c p' ar' d' g' c',
  keeps_offset solver
  /\ contact_mechanics solver rms callback (ex_args 0 None 3) = (calls, Ret (p, ar, d, g, c))
  /\ contact_mechanics solver rms callback (ex_args 10 None 3) = (calls', Ret (p', ar', d', g', c'))
  /\ nth 0 d' 0 = nth 0 d 0 - 10 /\ nth 1 d' 0 = nth 1 d 0 - 10 /\ nth 2 d' 0 = nth 2 d 0 - 30.
Proof.
  destruct (three_steps 0) as (calls & p & ar & g & cv & H & AR). destruct (three_steps 10) as (calls' & p' & ar' & g' & cv' & H' & AR').
  exists half_contact, (fun _ => 0), silent, calls, calls', p, ar. eexists. exists g, cv, p', ar'. eexists. exists g', cv'.
  split; [exact half_contact_keeps|]. split; [exact H|]. split; [exact H'|]. cbn [nth]. repeat split; lra.
Qed.
Print Assumptions C50_height_reference_refuted.

(** The areas and displacements of the first steps are the ones computed, so
    the hypotheses of C49 and C50 are met. *)
Example C49_nonvacuous : exists calls arr, contact_mechanics half_contact (fun _ => 0) silent (ex_args 0 None 3) = (calls, Ret arr)
  /\ List.length calls = 3%nat.
Proof.
  destruct (three_steps 0) as (calls & p & ar & g & cv & H & AR). do 2 eexists. split; [exact H|].
  destruct (C49_records _ _ _ _ _ _ H) as (ss & -> & _ & _ & F). destruct (F _ eq_refl) as (_ & L & _). rewrite map_length, L. reflexivity.
Qed.
Example C49_nonvacuous_offsets : exists c1 A1 c2 A2,
  contact_mechanics half_contact (fun _ => 0) silent (set_offsets [0; 1] (ex_args 0 None 3)) = (c1, Ret A1)
  /\ contact_mechanics half_contact (fun _ => 0) silent (set_pressures [2] (ex_args 0 None 3)) = (c2, Ret A2)
  /\ is_plastic_run (ex_args 0 None 3) = false /\ is_plastic_run (ex_args 0 (Some 1) 3) = true /\ quiet silent.
Proof.
  destruct (runs (set_offsets [0; 1] (ex_args 0 None 3))) as (c1 & A1 & H1); try reflexivity; try (cbn; lia).
  destruct (runs (set_pressures [2] (ex_args 0 None 3))) as (c2 & A2 & H2); try reflexivity; try (cbn; lia).
  exists c1, A1, c2, A2. split; [exact H1|]. split; [exact H2|]. split; [reflexivity|]. split; [|intros ? ?; reflexivity].
  unfold is_plastic_run. cbn. destruct (Rlt_dec 0 1); [reflexivity|lra].
Qed.
Example C48_nonvacuous : modes (ex_args 0 None 3) = 1%nat /\ modes (set_substrate None (ex_args 0 None 3)) = 1%nat
  /\ modes (mkCm (two_rows 0) [1; 1] true false None (Some 3%Z) (Some [1]) None None 100) = 2%nat
  /\ requested (ex_args 0 None 0) = 0%nat /\ requested (ex_args 0 None 3) = 3%nat.
Proof. repeat split. Qed.
Example C50_nonvacuous : chosen 1 (1 / 2) 0 4 [(- (1 / 2), 1); (- 1, 0)] (- (3 / 4))
  /\ (exists p, In p [(- (1 / 2), 1); (- 1, 0)] /\ 1 <= snd p).
Proof.
  split; [|exists (- (1 / 2), 1); split; [left; reflexivity|cbn; lra]]. cbn [chosen].
  exists [(- 1, 0); (- (1 / 2), 1)], 0%nat. split; [split; [apply perm_swap|split]|].
  - intros i j IJ. cbn in IJ. replace i with 0%nat by lia. replace j with 1%nat by lia. cbn. lra.
  - intros b. cbn. destruct (Req_EM_T 1 b), (Req_EM_T 0 b); try reflexivity. lra.
  - split; [cbn; lia|]. split; [|split].
    + intros k K. cbn in K. destruct k as [|[|k]]; [lra| |lia]. unfold growth. cbn. lra.
    + intros k K. lia.
    + cbn. lra.
Qed.

(** ** C51: output *)

(** The force array has the size of the surface, for the half-spaces of the
    pipeline. *)
Definition grid_force (solver : substrate -> surface -> option R -> solver_args -> res oresult) : Prop :=
  forall name sizes sb sf h sa r, make_half_space name (sf_grid sf) sizes = Ret sb ->
    solver sb sf h sa = Ret r -> a_shape (o_jac r) = sf_grid sf.

Theorem C51_maps : forall solver rms callback a calls r lx ly,
  contact_mechanics solver rms callback a = (calls, r) -> grid_force solver ->
  List.length (sf_grid (cm_topography a)) = 2%nat -> cm_sizes a = [lx; ly] -> 0 < lx -> 0 < ly ->
  forall o, In o calls ->
    (forall k, (k < size (a_shape (out_gap o)))%nat -> 0 <= flat (out_gap o) k)
    /\ a_shape (out_pressure o) = sf_grid (cm_topography a) /\ fst (out_contact o) = sf_grid (cm_topography a)
    /\ (forall x y, snd (out_contact o) x y = true <-> 0 < a_val (out_pressure o) x y)
    /\ out_load o = amean (out_pressure o)
    /\ out_area o = INR (points_in (out_contact o)) / INR (size (sf_grid (cm_topography a)))
    /\ 0 <= out_area o <= 1.
Proof.
  intros solver rms callback a calls r lx ly H GF L2 SZ X Y o IO.
  destruct (C49_records _ _ _ _ _ _ H) as (ss & -> & [->|[sb E]] & _ & _); [destruct IO|].
  apply in_map_iff in IO. destruct IO as (s & <- & IN).
  destruct (half_space_inv _ _ _ _ (ex_substrate _ _ _ _ _ E)) as (_ & NZ & _ & AR & _). rewrite SZ, L2 in AR. specialize (AR eq_refl).
  pose proof (size_pos _ NZ) as PZ. pose proof (lt_0_INR _ PZ) as PI0.
  destruct (ex_grid _ _ _ _ _ E s IN) as [GB _].
  destruct (ex_output _ _ _ _ _ E s IN) as (n0 & n1 & d & SH & _ & _ & Z1 & Z2 & Z3 & _ & Z4 & Z5).
  pose proof (ex_substrate _ _ _ _ _ E) as HS. rewrite <- GB in HS.
  pose proof (GF _ _ _ _ _ _ _ HS (ex_solver _ _ _ _ _ E s IN)) as SH'. rewrite GB in SH', Z5.
  assert (T : fold_right Rmult 1 (cm_sizes a) = lx * ly) by (rewrite SZ; cbn; lra).
  assert (T' : fold_right Rmult 1 [lx; ly] = lx * ly) by (cbn; lra).
  assert (PA : 0 < sb_area sb) by (rewrite AR, T'; apply Rdiv_lt_0_compat; [nra|exact PI0]).
  split. { intros k _. rewrite Z1. unfold flat, amap. cbn [a_val a_shape]. apply Rmax_l. }
  split; [rewrite Z2; exact SH'|]. split; [rewrite Z3; exact SH'|].
  split.
  { intros x y. rewrite Z3, Z2. unfold positive_zone, amap. cbn [snd a_val].
    destruct (Rlt_dec 0 (a_val (o_jac (dn_opt s)) x y)) as [P|P]; split; intros Q; try reflexivity; try discriminate.
    - apply Rdiv_lt_0_compat; assumption.
    - exfalso. apply P. apply (Rmult_lt_reg_r (/ sb_area sb)); [apply Rinv_0_lt_compat; exact PA|]. unfold Rdiv in Q. lra. }
  split.
  { rewrite Z4, Z2. unfold amean. rewrite (asum_scale _ (/ sb_area sb)) by reflexivity. cbn [a_shape amap]. rewrite SH', AR, T, T'. field.
    repeat split; lra. }
  rewrite count_points in Z5. rewrite <- Z3 in Z5. split; [exact Z5|]. rewrite Z5.
  pose proof (points_le (out_contact (dn_out s))) as PL. rewrite Z3 in PL at 2. cbn [positive_zone fst] in PL. rewrite SH' in PL.
  apply le_INR in PL. pose proof (pos_INR (points_in (out_contact (dn_out s)))). split.
  - apply Rmult_le_pos; [lra|]. left. apply Rinv_0_lt_compat. exact PI0.
  - apply (Rmult_le_reg_r (INR (size (sf_grid (cm_topography a))))); [exact PI0|]. unfold Rdiv. rewrite Rmult_assoc, Rinv_l by lra. lra.
Qed.
Print Assumptions C51_maps.

(** The returned arrays are computed from the maps. *)
Theorem C51_arrays : forall solver rms callback a calls p ar d g c lx ly,
  contact_mechanics solver rms callback a = (calls, Ret (p, ar, d, g, c)) -> grid_force solver ->
  List.length (sf_grid (cm_topography a)) = 2%nat -> cm_sizes a = [lx; ly] -> 0 < lx -> 0 < ly ->
  p = map (fun o => amean (out_pressure o)) calls
  /\ ar = map (fun o => INR (points_in (out_contact o)) / INR (size (sf_grid (cm_topography a)))) calls
  /\ d = map out_offset calls.
Proof.
  intros solver rms callback a calls p ar d g c lx ly H GF L2 SZ X Y.
  pose proof (C51_maps _ _ _ _ _ _ _ _ H GF L2 SZ X Y) as M.
  destruct (C49_records _ _ _ _ _ _ H) as (ss & -> & B & _ & F). destruct (F _ eq_refl) as (NE & L & A).
  injection A as -> -> -> _ _. rewrite !map_map. destruct B as [->|[sb E]]; [congruence|].
  repeat split; apply map_ext_in; intros s IN.
  - apply (M (dn_out s)). apply in_map. exact IN.
  - apply (M (dn_out s)). apply in_map. exact IN.
  - destruct (ex_output _ _ _ _ _ E s IN) as (n0 & n1 & dd & _ & _ & _ & _ & _ & _ & Z & _). symmetry. exact Z.
Qed.
Print Assumptions C51_arrays.

(** Elastic runs: the mean gap is the mean of the gap before negative values
    are cut off, hence at most the mean of the gap map. *)
Theorem C51_mean_gap : forall solver rms callback a calls p ar d g c n m,
  contact_mechanics solver rms callback a = (calls, Ret (p, ar, d, g, c)) -> is_plastic_run a = false ->
  sf_grid (cm_topography a) = [n; m] ->
  (forall o, In o calls -> a_shape (out_disp o) = [n; m]) ->
  forall i o, nth_error calls i = Some o -> exists gi unclipped, nth_error g i = Some gi
    /\ gi = amean unclipped /\ gi <= amean (out_gap o)
    /\ forall k, (k < n * m)%nat -> flat (out_gap o) k = Rmax 0 (flat unclipped k).
Proof.
  intros solver rms callback a calls p ar d g c n m H PL G2 SD i o N.
  destruct (C49_records _ _ _ _ _ _ H) as (ss & -> & B & _ & F). destruct (F _ eq_refl) as (NE & L & A).
  injection A as _ _ _ -> _. rewrite nth_error_map in N. destruct (nth_error ss i) as [s|] eqn:NS; [|discriminate]. injection N as <-.
  destruct B as [->|[sb E]]; [congruence|]. assert (IN : In s ss) by (eapply nth_error_In; exact NS).
  destruct (half_space_inv _ _ _ _ (ex_substrate _ _ _ _ _ E)) as (_ & NZ & _). rewrite G2 in NZ.
  assert (0 < n)%nat by (specialize (NZ n (or_introl eq_refl)); lia).
  assert (M0 : (0 < m)%nat) by (specialize (NZ m (or_intror (or_introl eq_refl))); lia).
  destruct (ex_output _ _ _ _ _ E s IN) as (n0 & n1 & dd & _ & _ & BO & Z1 & _).
  destruct (ex_grid _ _ _ _ _ E s IN) as [GB GA]. destruct (ex_elastic _ _ _ _ _ E PL s IN) as [EA _]. rewrite EA in BO.
  pose proof (SD _ (in_map dn_out _ _ IN)) as S1.
  assert (S2 : a_shape (heights (dn_before s)) = [n; m]) by (unfold heights; cbn; congruence).
  destruct (binop_mean n m _ _ dd S1 S2 M0 BO) as (S3 & FL & MN).
  exists (gap_of s), (amap (fun z => z - o_offset (dn_opt s)) dd). rewrite nth_error_map, NS. split; [reflexivity|].
  assert (SZ0 : (0 < size (a_shape dd))%nat) by (rewrite S3; unfold size; cbn; nia).
  assert (GE : gap_of s = amean (amap (fun z => z - o_offset (dn_opt s)) dd)).
  { rewrite (amean_shift _ (o_offset (dn_opt s))) by (reflexivity || exact SZ0). rewrite MN. unfold gap_of. reflexivity. }
  split; [exact GE|]. split.
  - rewrite GE, Z1. apply amean_le; [reflexivity|]. intros k _. unfold flat, amap. cbn [a_shape a_val]. apply Rmax_r.
  - intros k _. rewrite Z1. reflexivity.
Qed.
Print Assumptions C51_mean_gap.

(** The returned mean gap can be negative, although the gap map never is. *)
Theorem C51_mean_gap_refuted : exists solver rms callback a calls p ar d g c,
  grid_force solver /\ contact_mechanics solver rms callback a = (calls, Ret (p, ar, d, g, c)) /\ nth 0 g 0 < 0.
Proof.
  destruct (runs (set_offsets [1] (ex_args 0 None 3))) as (calls & [[[[p ar] d] g] cv] & H); try reflexivity; try (cbn; lia).
  exists half_contact, (fun _ => 0), silent, (set_offsets [1] (ex_args 0 None 3)), calls, p, ar, d, g, cv.
  split; [intros name sizes sb sf h sa r _ S; injection S as <-; reflexivity|]. split; [exact H|].
  destruct (C49_records _ _ _ _ _ _ H) as (ss & CA & [->|[sb E]] & _ & F); destruct (F _ eq_refl) as (NE & L & A); [congruence|].
  cbn in L. destruct ss as [|s0 [|? ?]]; try discriminate. injection A as _ _ _ -> _. cbn [map nth].
  destruct (ex_offsets _ _ _ _ _ E [1] eq_refl 0%nat s0 eq_refl) as (_ & X & _). cbn in X.
  pose proof (ex_solver _ _ _ _ _ E s0 (or_introl eq_refl)) as S.
  destruct (ex_elastic _ _ _ _ _ E eq_refl s0 (or_introl eq_refl)) as [_ HB]. specialize (HB (or_introl eq_refl)).
  destruct (ex_output _ _ _ _ _ E s0 (or_introl eq_refl)) as (n0 & n1 & dd & SH & DS & _).
  unfold gap_of. rewrite (half_contact_offset _ _ _ _ _ _ S X). unfold half_contact in S. injection S as S. rewrite <- S in SH, DS.
  rewrite HB in *. cbn in SH. injection SH as <- <-. unfold head_slice in DS. cbn in DS. injection DS as DS. rewrite <- DS.
  cbn [cm_topography set_offsets ex_args]. destruct (two_rows_facts 0) as (-> & _). unfold amean, asum. cbn. lra.
Qed.
Print Assumptions C51_mean_gap_refuted.

(** In plastic runs the mean gap belongs to the heights before the step and the
    gap map to those after it: the map is zero and the mean gap is not. *)
Theorem C51_plastic_gap_refuted : exists solver rms callback a calls p ar d g c o,
  is_plastic_run a = true /\ contact_mechanics solver rms callback a = (calls, Ret (p, ar, d, g, c))
  /\ nth_error calls 0 = Some o /\ (forall x y, (x < 2)%nat -> (y < 2)%nat -> a_val (out_gap o) x y = 0) /\ nth 0 g 0 = - (3 / 2).
Proof.
  destruct (runs (set_offsets [1] (ex_args 0 (Some 1) 3))) as (calls & [[[[p ar] d] g] cv] & H); try reflexivity; try (cbn; lia).
  destruct (C49_records _ _ _ _ _ _ H) as (ss & CA & [->|[sb E]] & _ & F); destruct (F _ eq_refl) as (NE & L & A); [congruence|].
  cbn in L. destruct ss as [|s0 [|? ?]]; try discriminate.
  exists half_contact, (fun _ => 0), silent, (set_offsets [1] (ex_args 0 (Some 1) 3)), calls, p, ar, d, g, cv, (dn_out s0).
  assert (PL : is_plastic_run (set_offsets [1] (ex_args 0 (Some 1) 3)) = true).
  { unfold is_plastic_run. cbn. destruct (Rlt_dec 0 1); [reflexivity|lra]. }
  split; [exact PL|]. split; [exact H|]. split; [rewrite CA; reflexivity|]. injection A as _ _ _ -> _. cbn [map nth].
  pose proof (or_introl eq_refl : In s0 [s0]) as IN.
  destruct (ex_offsets _ _ _ _ _ E [1] eq_refl 0%nat s0 eq_refl) as (_ & X & _). cbn in X.
  pose proof (ex_solver _ _ _ _ _ E s0 IN) as S. pose proof (half_contact_offset _ _ _ _ _ _ S X) as OF.
  pose proof (ex_first _ _ _ _ _ E eq_refl s0 eq_refl) as HB. cbn [cm_topography set_offsets ex_args] in HB.
  destruct (ex_grid _ _ _ _ _ E s0 IN) as [GB GA]. cbn in GB, GA.
  destruct (ex_output _ _ _ _ _ E s0 IN) as (n0 & n1 & dd & SH & DS & BO & GP & _).
  destruct (ex_plastic _ _ _ _ _ E PL s0 IN) as [_ PC].
  assert (HS : make_half_space "periodic" [2; 2]%nat [1; 1] = Ret sb) by exact (ex_substrate _ _ _ _ _ E).
  destruct (half_space_ok "periodic" 2 2 1 1) as (sb' & HS' & TP); [left; repeat split; lia|].
  rewrite HS in HS'. injection HS' as <-.
  unfold half_contact in S. injection S as S. rewrite <- S in SH, DS, PC. cbn [o_success o_x o_offset o_plastic o_jac a_shape] in *.
  rewrite GB in SH, DS, PC. injection SH as <- <-. unfold head_slice in DS. cbn in DS. injection DS as DS.
  rewrite X in PC. destruct (PC eq_refl) as (gm & CG & HA). unfold compute_gap in CG. rewrite TP, HB in CG.
  unfold head_slice in CG. cbn in CG. injection CG as CG.
  assert (HA' : forall x y, (x < 2)%nat -> (y < 2)%nat -> a_val (heights (dn_after s0)) x y = - 1).
  { intros x y Hx Hy. rewrite HA, <- CG, HB. cbn. unfold bidx. cbn. destruct (Nat.eqb x 0); lra. }
  unfold binop in BO. rewrite <- DS in BO. cbn [a_shape] in BO.
  assert (SA : a_shape (heights (dn_after s0)) = [2; 2]%nat) by (unfold heights; cbn; exact GA). rewrite SA in BO.
  unfold bext in BO. cbn [Nat.eqb] in BO. injection BO as BO.
  split.
  - intros x y Hx Hy. rewrite GP, <- BO. unfold amap, bidx. cbn.
    change (sf_base (dn_after s0) x y + sf_plastic (dn_after s0) x y) with (a_val (heights (dn_after s0)) x y).
    rewrite HA' by assumption. rewrite OF. unfold Rmax. destruct (Rle_dec _ _); lra.
  - unfold gap_of. rewrite OF, HB, <- DS. destruct (two_rows_facts 0) as (-> & _). unfold amean, asum. cbn. lra.
Qed.
Print Assumptions C51_plastic_gap_refuted.

Example C51_nonvacuous : exists calls arr,
  contact_mechanics half_contact (fun _ => 0) silent (set_pressures [2] (ex_args 0 None 3)) = (calls, Ret arr)
  /\ grid_force half_contact /\ calls <> [] /\ forall o, In o calls -> a_shape (out_disp o) = [2; 2]%nat.
Proof.
  destruct (runs (set_pressures [2] (ex_args 0 None 3))) as (calls & arr & H); try reflexivity.
  exists calls, arr. split; [exact H|]. split; [intros name sizes sb sf h sa r _ S; injection S as <-; reflexivity|].
  destruct (C49_records _ _ _ _ _ _ H) as (ss & CA & [->|[sb E]] & _ & F); destruct (F _ eq_refl) as (NE & L & A); [congruence|].
  split; [rewrite CA; destruct ss; [congruence|discriminate]|]. intros o IO. rewrite CA in IO. apply in_map_iff in IO. destruct IO as (s & <- & IN).
  destruct (ex_output _ _ _ _ _ E s IN) as (n0 & n1 & dd & SH & DS & _). destruct (ex_grid _ _ _ _ _ E s IN) as [GB _].
  pose proof (ex_solver _ _ _ _ _ E s IN) as S. unfold half_contact in S. injection S as S. rewrite <- S in SH, DS.
  cbn [o_x o_jac a_shape] in *. rewrite GB in SH, DS. cbn in SH. injection SH as <- <-. unfold head_slice in DS. cbn in DS. injection DS as <-. reflexivity.
Qed.
