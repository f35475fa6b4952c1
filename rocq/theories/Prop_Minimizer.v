(** * C107 Minimisation over the displacements ([SystemBase.minimize_proxy])

    The optimiser is any program that asks the objective and the Hessian product at
    any points, in any order, and returns anything. *)
From Coq Require Import Reals Lia Lra List Arith Bool FunctionalExtensionality.
From Verif Require Import Py FFT_Base HalfSpace_Spec HalfSpace_Model HalfSpace_Proofs HalfSpace_Results HalfSpace_Results2 HalfSpace_Witness Free_Model
  Systems_Model Systems_Spec Systems_Proofs Systems_Results Systems_Results2 Prop_Systems Prop_HalfSpace.
From Coq Require Import List.
Import ListNotations.
Local Open Scope R_scope.

Section Calls.
  Variables (sb : substrate) (sf : surface) (off : R).

  Lemma sys_run : forall u pot frc y, exists y', evaluate_sys sb sf u off pot frc y = (y', snd (evaluate_sys sb sf u off pot frc fresh))
    /\ y_zone y' = y_zone y /\ y_disp y' = y_disp y /\ y_offset y' = y_offset y.
  Proof.
    intros u pot frc y. unfold evaluate_sys, mbind, lift, upd, mret. destruct (compute_gap sb sf u off) as [g|e]; cbn [snd].
    - destruct (sb_eval sb u pot frc) as [ef|e]; cbn [snd]; eexists; (split; [reflexivity|]); repeat split.
    - eexists. split; [reflexivity|]. repeat split.
  Qed.
  Lemma objective_run : forall gr x y, exists y', objective sb sf off gr x y = (y', snd (objective sb sf off gr x fresh))
    /\ y_zone y' = y_zone y /\ y_disp y' = y_disp y /\ y_offset y' = y_offset y.
  Proof.
    intros gr x y. unfold objective, mbind, lift. destruct (reshape x (sb_sub sb)) as [u|e].
    - destruct (sys_run u true gr y) as (y1 & E1 & K). rewrite E1. destruct (sys_run u true gr fresh) as (y2 & E2 & _). rewrite E2. cbn [snd].
      destruct (snd (evaluate_sys sb sf u off true gr fresh)) as [ef|e]; exists y1; split; auto.
    - exists y. split; [reflexivity|]. repeat split.
  Qed.
  Lemma exec_run : forall p y, exists y', exec (objective sb sf off true) (primal_hessian_product sb) p y
      = (y', snd (exec (objective sb sf off true) (primal_hessian_product sb) p fresh))
    /\ y_zone y' = y_zone y /\ y_disp y' = y_disp y /\ y_offset y' = y_offset y.
  Proof.
    induction p as [r|x k IH|x k IH]; intros y; cbn [exec].
    - exists y. repeat split.
    - unfold mbind. destruct (objective_run true x y) as (y1 & E1 & Z1 & D1 & O1). rewrite E1.
      destruct (objective_run true x fresh) as (y2 & E2 & _). rewrite E2. cbn [snd].
      destruct (snd (objective sb sf off true x fresh)) as [v|e].
      + destruct (IH v y1) as (y3 & E3 & Z3 & D3 & O3). destruct (IH v y2) as (y4 & E4 & _). rewrite E3, E4. exists y3. cbn [snd].
        split; [reflexivity|]. repeat split; congruence.
      + exists y1. split; [reflexivity|]. auto.
    - unfold mbind, lift. destruct (primal_hessian_product sb x) as [h|e].
      + destruct (IH h y) as (y3 & E3 & K3). rewrite E3. exists y3. split; [reflexivity|exact K3].
      + exists y. repeat split.
  Qed.
End Calls.


Lemma base_inv : forall sb sf off init opt y y' r, base_minimize_proxy sb sf off init opt y = (y', Ret r) ->
  exists x0 r0 g e f, shape_minimisation_input sb (match init with Some d => d | None => mkArr (sb_sub sb) (fun _ _ => 0) end) = Ret x0
  /\ snd (exec (objective sb sf off true) (primal_hessian_product sb) (opt x0) fresh) = Ret r0
  /\ shape_minimisation_output sb (o_x r0) = Ret (o_x r) /\ shape_minimisation_output sb (o_jac r0) = Ret (o_jac r)
  /\ o_success r = o_success r0 /\ compute_gap sb sf (o_x r) off = Ret g /\ sb_eval sb (o_x r) true true = Ret (e, f)
  /\ y_gap y' = Some g /\ y_disp y' = Some (o_x r) /\ y_energy y' = e /\ y_force y' = f /\ y_zone y' = y_zone y
  /\ y_offset y' = Some off /\ y_senergy y' = e /\ y_sforce y' = f
  /\ forall y2, snd (base_minimize_proxy sb sf off init opt y2) = Ret r.
Proof.
  intros sb sf off init opt y y' r H. unfold base_minimize_proxy in H |- *.
  set (d0 := match init with Some d => d | None => _ end) in *. unfold mbind at 1, lift at 1 in H.
  destruct (shape_minimisation_input sb d0) as [x0|e] eqn:S0; [|discriminate]. unfold mbind at 1 in H.
  destruct (exec_run sb sf off (opt x0) y) as (y1 & E1 & Z1 & _). rewrite E1 in H. clear E1.
  destruct (snd (exec _ _ (opt x0) fresh)) as [r0|e] eqn:EX; [|discriminate].
  unfold mbind, lift, upd, mret, evaluate_sys in H.
  destruct (shape_minimisation_output sb (o_x r0)) as [u|e] eqn:SU; [|discriminate].
  unfold mbind, lift, upd, mret in H.
  destruct (compute_gap sb sf u off) as [g|e] eqn:CG; [|discriminate].
  destruct (sb_eval sb u true true) as [[e f]|e0] eqn:EV; [|discriminate].
  destruct (shape_minimisation_output sb (o_jac r0)) as [j|e0] eqn:SJ; [|discriminate].
  injection H as <- <-. cbn [o_x o_jac o_success]. exists x0, r0, g, e, f.
  repeat match goal with |- _ /\ _ => split end; try reflexivity; try assumption.
  intros y2. unfold mbind at 1, lift at 1. unfold mbind at 1.
  destruct (exec_run sb sf off (opt x0) y2) as (y3 & E3 & _). rewrite E3, EX.
  unfold mbind, lift, upd, mret, evaluate_sys. rewrite SU. unfold mbind, lift, upd, mret. rewrite CG, EV, SJ. reflexivity.
Qed.
Lemma output_inv : forall sb a b, shape_minimisation_output sb a = Ret b ->
  a_shape b = sb_sub sb /\ points (a_shape a) = points (sb_sub sb) /\ b = mkArr (sb_sub sb) (unflat (sb_sub sb) a).
Proof.
  intros sb a b H. unfold shape_minimisation_output in H. destruct (Nat.eqb_spec (size (sb_sub sb)) (size (a_shape a))) as [E|E]; [|discriminate].
  rewrite (reshape_ok a (sb_sub sb)) in H by (symmetry; exact E). injection H as <-. split; [reflexivity|]. split; [symmetry; exact E|reflexivity].
Qed.

(** The state after the call belongs to the displacements that are returned, whether or
    not the optimiser succeeded: displacements, offset, gap, energy and forces.  The
    contact zone is the one of an earlier calculation, if any. *)
Theorem C107_state : forall sb sf off init opt y y' r, base_minimize_proxy sb sf off init opt y = (y', Ret r) ->
  a_shape (o_x r) = sb_sub sb /\ a_shape (o_jac r) = sb_sub sb
  /\ y_disp y' = Some (o_x r) /\ y_offset y' = Some off
  /\ (exists g e f, compute_gap sb sf (o_x r) off = Ret g /\ y_gap y' = Some g
     /\ sb_eval sb (o_x r) true true = Ret (e, f)
     /\ y_energy y' = e /\ y_senergy y' = e /\ y_force y' = f /\ y_sforce y' = f)
  /\ compute_nb_contact_pts y' = compute_nb_contact_pts y.
Proof.
  intros sb sf off init opt y y' r H.
  destruct (base_inv _ _ _ _ _ _ _ _ H) as (x0 & r0 & g & e & f & _ & _ & SU & SJ & _ & CG & EV & YG & YD & YE & YF & YZ & YO & YSE & YSF & _).
  split; [apply (output_inv _ _ _ SU)|]. split; [apply (output_inv _ _ _ SJ)|]. split; [exact YD|]. split; [exact YO|]. split.
  - exists g, e, f. auto 10.
  - unfold compute_nb_contact_pts. rewrite YZ. reflexivity.
Qed.
Print Assumptions C107_state.

(** The displacements and the gradient are the optimiser's, entry by entry; it starts from
    the entries of the initial displacements; nothing depends on what the system was used for before. *)
Theorem C107_result : forall sb sf off init opt y y' r, okgrid (sb_sub sb) -> base_minimize_proxy sb sf off init opt y = (y', Ret r) ->
  (forall y2, snd (base_minimize_proxy sb sf off init opt y2) = Ret r)
  /\ exists x0 r0, snd (exec (objective sb sf off true) (primal_hessian_product sb) (opt x0) fresh) = Ret r0
     /\ o_success r = o_success r0
     /\ (forall k, entry (o_x r) k = entry (o_x r0) k /\ entry (o_jac r) k = entry (o_jac r0) k)
     /\ a_shape x0 = [points (sb_sub sb)]
     /\ forall k, entry x0 k = match init with Some d => entry d k | None => 0 end.
Proof.
  intros sb sf off init opt y y' r OK H.
  destruct (base_inv _ _ _ _ _ _ _ _ H) as (x0 & r0 & g & e & f & S0 & EX & SU & SJ & SC & _ & _ & _ & _ & _ & _ & _ & _ & _ & _ & IND).
  split; [exact IND|]. exists x0, r0. split; [exact EX|]. split; [exact SC|]. split.
  - intros k. destruct (output_inv _ _ _ SU) as (_ & _ & ->). destruct (output_inv _ _ _ SJ) as (_ & _ & ->). rewrite !(entry_unflat _ _ _ OK). auto.
  - unfold shape_minimisation_input in S0. destruct (Nat.eqb_spec (size (sb_sub sb)) (size (a_shape (match init with Some d => d | None => mkArr (sb_sub sb) (fun _ _ => 0) end)))) as [E|E]; [|discriminate].
    injection S0 as <-. split; [cbn [ravel a_shape]; rewrite <- E; reflexivity|].
    intros k. rewrite entry_ravel. destruct init; reflexivity.
Qed.
Print Assumptions C107_result.

(** An optimiser that reports the gradient of the point it returns. *)
Definition honest sb sf off (opt : arr -> program) : Prop :=
  forall x0 r0, snd (exec (objective sb sf off true) (primal_hessian_product sb) (opt x0) fresh) = Ret r0 ->
    exists E G, snd (objective sb sf off true (o_x r0) fresh) = Ret (E, Some G)
      /\ forall k, (k < points (sb_sub sb))%nat -> entry (o_jac r0) k = entry G k.
(** Then the forces of the state balance the gradient of the result, and the energy is its value. *)
Theorem C107_forces : forall sb sf off init opt y y' r, okgrid (sb_sub sb) -> honest sb sf off opt ->
  base_minimize_proxy sb sf off init opt y = (y', Ret r) ->
  exists x E G f, snd (objective sb sf off true x fresh) = Ret (E, Some G) /\ (forall k, entry x k = entry (o_x r) k)
    /\ y_energy y' = E /\ y_force y' = Some f
    /\ forall k, (k < points (sb_sub sb))%nat -> entry f k = - entry (o_jac r) k.
Proof.
  intros sb sf off init opt y y' r OK HO H.
  destruct (base_inv _ _ _ _ _ _ _ _ H) as (x0 & r0 & g & e & f & S0 & EX & SU & SJ & SC & CG & EV & YG & YD & YE & YF & YZ & YO & YSE & YSF & _).
  destruct (HO x0 r0 EX) as (E & G & OB & GE). exists (o_x r0), E, G.
  destruct (output_inv _ _ _ SU) as (_ & PS & UU). pose proof OB as OB'. unfold objective, mbind at 1, lift at 1 in OB'.
  rewrite (reshape_ok _ _ PS), <- UU in OB'. unfold mbind, evaluate_sys, lift, upd, mret in OB'. unfold mbind, lift, upd, mret in OB'.
  rewrite CG, EV in OB'. cbn [fst snd] in OB'. unfold eg in OB'. cbn [fst snd] in OB'. destruct f as [f|]; [|discriminate]. injection OB' as <- <-.
  exists f. split; [exact OB|]. split; [intros k; rewrite UU, (entry_unflat _ _ _ OK); reflexivity|]. split; [exact YE|]. split; [exact YF|].
  intros k Hk. destruct (output_inv _ _ _ SJ) as (_ & _ & ->). rewrite (entry_unflat _ _ _ OK), (GE k Hk), entry_map, entry_ravel. ring.
Qed.
Print Assumptions C107_forces.

(** On a periodic half-space (or layer) a stationary point is the undeformed substrate: no
    forces and no energy, and only a uniform displacement that the substrate does not resist. *)
Theorem C107_stationary : forall a s sf off init opt y y' r, construct a = Ret s -> pos_args a ->
  honest (periodic s) sf off opt -> base_minimize_proxy (periodic s) sf off init opt y = (y', Ret r) ->
  (forall k, (k < points (a_grid a))%nat -> entry (o_jac r) k = 0) ->
  y_energy y' = Some 0
  /\ (exists f, y_force y' = Some f /\ forall k, (k < points (a_grid a))%nat -> entry f k = 0)
  /\ (forall i j, on_grid (a_grid a) i j -> a_val (o_x r) i j = mean (a_grid a) (a_val (o_x r)))
  /\ (a_q0 a <> Some 0 -> forall i j, on_grid (a_grid a) i j -> a_val (o_x r) i j = 0).
Proof.
  intros a s sf off init opt y y' r H HP HO RUN Z. destruct (per_shapes a s H) as (T & U & _). pose proof (per_grid a s H) as OK.
  assert (OKS : okgrid (sb_sub (periodic s))) by (rewrite U; exact OK).
  destruct (C107_forces _ _ _ _ _ _ _ _ OKS HO RUN) as (x & E & G & f & _ & _ & _ & YF & FJ). rewrite U in FJ.
  destruct (C107_state _ _ _ _ _ _ _ _ RUN) as (SX & _ & _ & _ & (g & e & f' & _ & _ & EV & YE & _ & YF' & _) & _).
  rewrite YF in YF'. subst f'. rewrite U in SX. destruct (o_x r) as [sh w]. cbn [a_shape a_val] in *. subst sh.
  destruct (qo_eval _ _ _ (per_quad a s H) w) as (v & V1 & V2). rewrite V1 in EV. injection EV as <- <-.
  assert (FZ : forall k, (k < points (a_grid a))%nat -> entry (mkArr (a_grid a) v) k = 0) by (intros k Hk; rewrite FJ, Z by exact Hk; ring).
  assert (LZ : inner (a_grid a) w (val_of (evaluate_force s) (a_grid a) w) = 0).
  { unfold inner, total. rewrite (Rsum2_ext _ _ _ (fun _ _ => 0 * 0)).
    - rewrite Rsum2_scal. ring.
    - intros i j Hi Hj. rewrite <- V2 by (split; assumption). rewrite <- (entry_grid (a_grid a) v i j Hj), FZ; [ring|].
      change (i * gy (a_grid a) + j < Systems_Spec.points (a_grid a))%nat. rewrite (npts_grid _ OK). nia. }
  rewrite LZ in YE. destruct (C23_energy_nonneg a s w H HP) as (E1 & f1 & E2 & _ & E3). cbn [periodic sb_eval] in V1. rewrite V1 in E2.
  injection E2 as <- _. destruct E3 as (M & M0); [rewrite LZ; ring|].
  split; [rewrite YE; f_equal; ring|]. split; [exists (mkArr (a_grid a) v); split; [exact YF|exact FZ]|]. split; assumption.
Qed.
Print Assumptions C107_stationary.

(** Initial displacements of another size raise before anything happens. *)
Theorem C107_size_raises : forall sb sf off d opt y, points (a_shape d) <> points (sb_sub sb) ->
  base_minimize_proxy sb sf off (Some d) opt y = (y, Exc IncompatibleResolutionErr).
Proof.
  intros sb sf off d opt y N. unfold base_minimize_proxy, mbind at 1, lift at 1, shape_minimisation_input.
  destruct (Nat.eqb_spec (size (sb_sub sb)) (size (a_shape d))) as [E|E]; [exfalso; apply N; symmetry; exact E|reflexivity].
Qed.
Print Assumptions C107_size_raises.

(** ** C41 The whole grid in one process: the energy of [evaluate_dual] *)
Theorem C41_parallel_whole : forall sb sf force off y y' e g u n m, (0 < n)%nat -> (0 < m)%nat ->
  a_shape force = [n; m] -> a_shape u = [n; m] -> sf_grid sf = [n; m] ->
  sb_disp sb (amap Ropp force) = Ret u -> evaluate_dual sb sf force off y = (y', Ret (e, g)) ->
  e = dual_energy_on (mkDec (0, 0) (n, m))%nat (a_val force) (a_val u) (a_val (heights sf)) off.
Proof.
  intros sb sf force off y y' e g u n m N M SF SU SH D H. assert (OK : okgrid [n; m]) by (split; [right; reflexivity|split; assumption]).
  unfold evaluate_dual, mbind, lift, upd, mret in H. rewrite D in H.
  destruct force as [sh F], u as [sh' U]. cbn [a_shape a_val] in *. subst sh sh'. unfold heights in H. rewrite SH in H.
  unfold amap in H. cbn [a_shape a_val] in H.
  destruct (binop_same Rminus [n; m] U (fun x y => sf_base sf x y + sf_plastic sf x y) OK) as (d & D1 & _). rewrite D1 in H.
  destruct (binop_same Rmult [n; m] F U OK) as (fu & E1 & S1). rewrite E1 in H.
  destruct (binop_same Rmult [n; m] F (fun x y => sf_base sf x y + sf_plastic sf x y + off) OK) as (fh & E2 & S2). rewrite E2 in H.
  cbn [bind] in H. injection H as _ <- _. rewrite !(asum_grid _ _ OK).
  unfold dual_energy_on, total, heights. cbn [d_loc d_n fst snd a_val Nat.add gx gy nth].
  f_equal; [f_equal|]; apply Rsum2_ext; intros xx yy Hxx Hyy; [apply S1|apply S2]; split; assumption.
Qed.
Print Assumptions C41_parallel_whole.

(** An optimiser that asks once and returns the initial displacements. *)
Definition ask_once (x0 : arr) : program :=
  Ask x0 (fun v => Finish (match snd v with Some G => Ret (mkOres false x0 G 0 (fun _ _ => false)) | None => Exc ValueErr end)).
Lemma ask_once_honest : forall sb sf off, honest sb sf off ask_once.
Proof.
  intros sb sf off x0 r0 E. unfold ask_once in E. cbn [exec] in E. unfold mbind in E.
  destruct (objective sb sf off true x0 fresh) as [y1 [[E0 [G|]]|e]] eqn:O; cbn [exec lift snd] in E; try discriminate.
  injection E as <-. cbn [o_x o_jac]. exists E0, G. rewrite O. split; [reflexivity|]. intros k _. reflexivity.
Qed.
Example C107_nonvacuous : exists s y' r f, construct hsA = Ret s /\ okgrid (sb_sub (periodic s)) /\ honest (periodic s) hsurf 1 ask_once
  /\ base_minimize_proxy (periodic s) hsurf 1 None ask_once fresh = (y', Ret r) /\ o_success r = false
  /\ y_force y' = Some f /\ compute_nb_contact_pts y' = None
  /\ pos_args hsA /\ (forall k, (k < points (a_grid hsA))%nat -> entry (o_jac r) k = 0).
Proof.
  destruct hsA_ok as (s & H). destruct (per_shapes hsA s H) as (T & U & _). pose proof (per_grid hsA s H) as OK.
  assert (OKS : okgrid (sb_sub (periodic s))) by (rewrite U; exact OK).
  assert (HO : honest (periodic s) hsurf 1 ask_once) by apply ask_once_honest.
  assert (RUN : exists y' r, base_minimize_proxy (periodic s) hsurf 1 None ask_once fresh = (y', Ret r) /\ o_success r = false
    /\ forall k, (k < points (a_grid hsA))%nat -> entry (o_jac r) k = 0).
  { unfold base_minimize_proxy. unfold shape_minimisation_input. cbn [a_shape]. rewrite Nat.eqb_refl.
    set (x0 := ravel (mkArr (sb_sub (periodic s)) (fun _ _ => 0))). unfold mbind at 1, lift at 1. unfold ask_once. cbn [exec]. unfold mbind at 1. unfold mbind at 1.
    assert (PX : size (a_shape x0) = Systems_Spec.points (a_grid hsA)) by (unfold x0; cbn [ravel a_shape]; rewrite U; reflexivity).
    destruct (objective_value (periodic s) hsurf _ _ OK T U eq_refl (per_force hsA s H) (per_quad hsA s H) 1 true x0 fresh PX) as (v & y1 & E1 & SV & SG).
    rewrite E1. cbn [snd exec lift]. unfold mbind, lift, upd, mret, shape_minimisation_output. cbn [o_x o_jac o_success].
    rewrite U, PX, Nat.eqb_refl, (reshape_ok _ _ PX). cbn [a_shape].
    match goal with |- context [evaluate_sys _ _ (mkArr _ ?w) _ _ _ ?y] =>
      destruct (evaluate_value (periodic s) hsurf _ _ OK T U eq_refl (per_force hsA s H) (per_quad hsA s H) w 1 true y) as (d & vv & y2 & E2 & _) end.
    rewrite E2, SV. cbn [size fold_right]. rewrite Nat.mul_1_r, Nat.eqb_refl.
    rewrite reshape_ok by (rewrite SV; cbn [size fold_right]; rewrite Nat.mul_1_r; reflexivity). do 2 eexists. split; [reflexivity|]. split; [reflexivity|].
    intros k Hk. cbn [o_jac]. rewrite (entry_unflat _ _ _ OK), (SG k Hk), (entry_mk _ _ k OK).
    pose proof (so_lin _ _ _ (per_force hsA s H) 0 0 (fun _ _ => 0) (fun _ _ => 0) _ _ (on_grid_k _ _ OK Hk)) as LZ. cbn beta in LZ.
    replace (unflat (a_grid hsA) x0) with (fun _ _ : nat => 0 * 0 + 0 * 0) by (apply functional_extensionality; intro; apply functional_extensionality; intro; rewrite Rmult_0_l, Rplus_0_l; reflexivity).
    change (periodic s).(sb_force) with (evaluate_force s) in LZ. rewrite LZ. ring. }
  destruct RUN as (y' & r & RUN & SC & JZ).
  destruct (C107_forces _ _ _ _ _ _ _ _ OKS HO RUN) as (x & E & G & f & _ & _ & _ & YF & _).
  destruct (C107_state _ _ _ _ _ _ _ _ RUN) as (_ & _ & _ & _ & _ & ZN).
  pose proof hsA_pos as HP. exists s, y', r, f. repeat match goal with |- _ /\ _ => split end; assumption.
Qed.
Example C41_parallel_whole_nonvacuous : exists s force u y' e g, construct hsA = Ret s
  /\ a_shape force = [4; 3]%nat /\ a_shape u = [4; 3]%nat /\ sf_grid hsurf = [4; 3]%nat
  /\ sb_disp (periodic s) (amap Ropp force) = Ret u /\ evaluate_dual (periodic s) hsurf force 1 fresh = (y', Ret (e, g)).
Proof.
  destruct hsA_ok as (s & H). pose proof (per_grid hsA s H) as OK.
  destruct (so_ret _ _ _ (per_disp hsA s H) (fun x y => - (INR x + 1))) as (u & U1 & _).
  exists s, (mkArr (a_grid hsA) (fun x _ => INR x + 1)), (mkArr (a_grid hsA) u).
  unfold evaluate_dual, mbind, lift, upd, mret, amap. cbn [a_shape a_val]. rewrite U1. unfold heights. cbn [a_val a_shape sf_grid hsurf sf_base sf_plastic].
  destruct (binop_same Rminus (a_grid hsA) u (fun x y => INR x - 2 * INR y + 0) OK) as (d & D1 & _).
  destruct (binop_same Rmult (a_grid hsA) (fun x _ => INR x + 1) u OK) as (fu & E1 & _).
  destruct (binop_same Rmult (a_grid hsA) (fun x _ => INR x + 1) (fun x y => INR x - 2 * INR y + 0 + 1) OK) as (fh & E2 & _).
  unfold hsurf. cbn [sf_grid sf_base sf_plastic]. rewrite D1, E1, E2. cbn [bind].
  do 3 eexists. split; [exact H|]. repeat split.
Qed.
