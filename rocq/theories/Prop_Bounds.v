(** * C108 Bounds of the minimisation over the displacements *)
From Coq Require Import Reals Lia Lra List Arith Bool FunctionalExtensionality String.
From Verif Require Import Py FFT_Base HalfSpace_Spec HalfSpace_Model HalfSpace_Proofs HalfSpace_Results HalfSpace_Results2 HalfSpace_Witness Free_Model
  Systems_Model Systems_Spec Systems_Proofs Systems_Results Systems_Results2 Prop_Systems Prop_Minimizer Bounds_Model.
From Coq Require Import List.
Import ListNotations.
Local Open Scope R_scope.

(** The methods that know bounds. *)
Definition knows_bounds (method : string) : Prop :=
  method = "L-BFGS-B"%string \/ method = "TNC"%string \/ method = "SLSQP"%string.
Lemma knows_spec : forall m, existsb (String.eqb m) bounded_minimizers = true <-> knows_bounds m.
Proof.
  intros m. unfold bounded_minimizers, knows_bounds. cbn [existsb]. rewrite !orb_true_iff, !String.eqb_eq. intuition discriminate.
Qed.

(** The results of the optimiser stay within the lower (upper) bounds it is given. *)
Definition result_of sb sf off gr (p : program) (r0 : oresult) : Prop :=
  exists y y1, exec (objective sb sf off gr) (primal_hessian_product sb) p y = (y1, Ret r0).
Definition keeps_low sb sf off gr (opt : arr -> option bounds -> program) : Prop :=
  forall x0 b r0, result_of sb sf off gr (opt x0 (Some b)) r0 ->
    forall k v, (k < points (sb_sub sb))%nat -> b_low b k = Fin v -> v <= entry (o_x r0) k.
Definition keeps_upp sb sf off gr (opt : arr -> option bounds -> program) : Prop :=
  forall x0 b r0, result_of sb sf off gr (opt x0 (Some b)) r0 ->
    forall k v, (k < points (sb_sub sb))%nat -> b_upp b k = Fin v -> entry (o_x r0) k <= v.

Lemma bounded_inv : forall sb sf procs off init method gr l u opt y y' r,
  minimize_bounded sb sf procs off init method gr l u opt y = (y', Ret r) ->
  exists x0 lm r0 y1 g e f, lower_of sb sf off l = Ret lm
  /\ exec (objective sb sf off gr) (primal_hessian_product sb) (opt x0 (if existsb (String.eqb method) bounded_minimizers then reshape_bounds lm u else None)) y = (y1, Ret r0)
  /\ shape_minimisation_output sb (o_x r0) = Ret (o_x r) /\ shape_minimisation_output sb (o_jac r0) = Ret (o_jac r)
  /\ compute_gap sb sf (o_x r) off = Ret g /\ sb_eval sb (o_x r) true gr = Ret (e, f)
  /\ y_gap y' = Some g /\ y_disp y' = Some (o_x r) /\ y_offset y' = Some off /\ y_energy y' = e /\ y_force y' = (if gr then f else None).
Proof.
  intros sb sf procs off init method gr l u opt y y' r H. unfold minimize_bounded in H. destruct (Nat.ltb 1 procs); [discriminate|].
  set (d0 := match init with Some d => d | None => _ end) in *. unfold mbind at 1, lift at 1 in H.
  destruct (shape_minimisation_input sb d0) as [x0|e] eqn:S0; [|discriminate]. unfold mbind at 1, lift at 1 in H.
  destruct (lower_of sb sf off l) as [lm|e] eqn:EL; [|discriminate]. unfold mbind at 1 in H. exists x0, lm.
  destruct (exec _ _ (opt x0 _) y) as [y1 [r0|e]] eqn:EX; [|discriminate]. exists r0, y1.
  unfold mbind, lift, upd, mret, evaluate_sys in H.
  destruct (shape_minimisation_output sb (o_x r0)) as [w|e] eqn:SU; [|discriminate]. unfold mbind, lift, upd, mret in H.
  destruct (compute_gap sb sf w off) as [g|e] eqn:CG; [|discriminate].
  destruct (sb_eval sb w true gr) as [[e f]|e0] eqn:EV; [|discriminate].
  destruct (shape_minimisation_output sb (o_jac r0)) as [j|e0] eqn:SJ; [|discriminate].
  injection H as <- <-. exists g, e, f. cbn [o_x o_jac]. repeat match goal with |- _ /\ _ => split end; try reflexivity; try assumption.
Qed.

(** Bounds given as arrays: the displacements of the result and of the state are within
    them, except where they are masked. *)
Theorem C108_arrays : forall sb sf procs off init method gr m u opt y y' r, okgrid (sb_sub sb) -> knows_bounds method ->
  keeps_low sb sf off gr opt -> keeps_upp sb sf off gr opt -> m_shape m = sb_sub sb -> m_shape u = sb_sub sb ->
  minimize_bounded sb sf procs off init method gr (LArr m) (Some u) opt y = (y', Ret r) ->
  y_disp y' = Some (o_x r) /\ forall i j, on_grid (sb_sub sb) i j ->
    (forall v, m_val m i j = Some v -> v <= a_val (o_x r) i j) /\ (forall v, m_val u i j = Some v -> a_val (o_x r) i j <= v).
Proof.
  intros sb sf procs off init method gr m u opt y y' r OK KB KL KU SM SU H.
  destruct (bounded_inv _ _ _ _ _ _ _ _ _ _ _ _ _ H) as (x0 & lm & r0 & y1 & g & e & f & EL & EX & OX & _ & _ & _ & _ & YD & _).
  injection EL as <-. apply knows_spec in KB. rewrite KB in EX. cbn [reshape_bounds] in EX. split; [exact YD|].
  intros i j (Hi & Hj). destruct (output_inv _ _ _ OX) as (_ & _ & ->). cbn [a_val]. unfold unflat.
  assert (KK : (i * gy (sb_sub sb) + j < points (sb_sub sb))%nat) by (rewrite (npts_grid _ OK); nia).
  assert (D : ((i * gy (sb_sub sb) + j) / gy (sb_sub sb) = i)%nat) by (rewrite (Nat.add_comm _ j), Nat.div_add, Nat.div_small by lia; reflexivity).
  assert (MD : ((i * gy (sb_sub sb) + j) mod gy (sb_sub sb) = j)%nat) by (rewrite (Nat.add_comm _ j), Nat.mod_add, Nat.mod_small by lia; reflexivity).
  split; intros v V.
  - apply (KL _ _ r0 (ex_intro _ y (ex_intro _ y1 EX)) _ v KK). cbn [b_low]. unfold filled. rewrite SM. fold (gy (sb_sub sb)). rewrite D, MD, V. reflexivity.
  - apply (KU _ _ r0 (ex_intro _ y (ex_intro _ y1 EX)) _ v KK). cbn [b_upp]. unfold filled. rewrite SU. fold (gy (sb_sub sb)). rewrite D, MD, V. reflexivity.
Qed.
Print Assumptions C108_arrays.

(** What the optimiser gets, for all combinations of lower and upper bounds: nothing without
    either, infinite bounds for the missing side and for masked entries. *)
Theorem C108_given : forall sb sf procs off init method gr l u opt y y' r, okgrid (sb_sub sb) -> knows_bounds method ->
  (forall t, l <> LText t) -> (forall m, l = LArr m -> m_shape m = sb_sub sb) -> (forall m, u = Some m -> m_shape m = sb_sub sb) ->
  minimize_bounded sb sf procs off init method gr l u opt y = (y', Ret r) ->
  exists x0 bo r0, result_of sb sf off gr (opt x0 bo) r0 /\ (forall k, entry (o_x r) k = entry (o_x r0) k)
    /\ (bo = None <-> l = LNone /\ u = None)
    /\ forall b, bo = Some b -> forall i j, on_grid (sb_sub sb) i j ->
        b_low b (i * gy (sb_sub sb) + j)%nat = match l with LArr m => match m_val m i j with Some v => Fin v | None => NegInf end | _ => NegInf end
        /\ b_upp b (i * gy (sb_sub sb) + j)%nat = match u with Some m => match m_val m i j with Some v => Fin v | None => PosInf end | None => PosInf end.
Proof.
  intros sb sf procs off init method gr l u opt y y' r OK KB LT SL SU H.
  destruct (bounded_inv _ _ _ _ _ _ _ _ _ _ _ _ _ H) as (x0 & lm & r0 & y1 & g & e & f & EL & EX & OX & _).
  apply knows_spec in KB. rewrite KB in EX. exists x0, (reshape_bounds lm u), r0. split; [exists y, y1; exact EX|].
  split; [intros k; destruct (output_inv _ _ _ OX) as (_ & _ & ->); apply (entry_unflat _ _ _ OK)|].
  assert (AT : forall m d i j, m_shape m = sb_sub sb -> on_grid (sb_sub sb) i j ->
     filled m d (i * gy (sb_sub sb) + j) = match m_val m i j with Some v => Fin v | None => d end).
  { intros m d i j SM (Hi & Hj). unfold filled. rewrite SM. fold (gy (sb_sub sb)).
    rewrite (Nat.add_comm _ j), Nat.div_add, Nat.mod_add, Nat.div_small, Nat.mod_small by lia. reflexivity. }
  destruct l as [|t|m]; [|exfalso; exact (LT t eq_refl)|]; injection EL as <-; destruct u as [u|]; cbn [reshape_bounds];
    (split; [split; [intros E; try discriminate E; split; reflexivity|intros (E1 & E2); try discriminate E1; try discriminate E2; reflexivity]|]);
    intros b EB; try discriminate EB; injection EB as <-; intros i j G; cbn [b_low b_upp]; split;
    first [reflexivity | apply AT; [first [exact (SL _ eq_refl)|exact (SU _ eq_refl)]|exact G]].
Qed.
Print Assumptions C108_given.

(** The state after the call, for all bounds and methods; without [gradient] no forces are computed. *)
Theorem C108_state : forall sb sf procs off init method gr l u opt y y' r,
  minimize_bounded sb sf procs off init method gr l u opt y = (y', Ret r) ->
  y_disp y' = Some (o_x r) /\ y_offset y' = Some off
  /\ exists g e f, compute_gap sb sf (o_x r) off = Ret g /\ y_gap y' = Some g
     /\ sb_eval sb (o_x r) true gr = Ret (e, f) /\ y_energy y' = e /\ y_force y' = (if gr then f else None).
Proof.
  intros sb sf procs off init method gr l u opt y y' r H.
  destruct (bounded_inv _ _ _ _ _ _ _ _ _ _ _ _ _ H) as (x0 & lm & r0 & y1 & g & e & f & _ & _ & _ & _ & CG & EV & YG & YD & YO & YE & YF).
  split; [exact YD|]. split; [exact YO|]. exists g, e, f. auto 10.
Qed.
Print Assumptions C108_state.

(** With [lbounds="auto"] the gap of the state is nowhere negative, for every optimiser that
    keeps its bounds, with any upper bounds, success or not. *)
Theorem C108_auto : forall sb sf procs off init method gr u opt y y' r, okgrid (sb_sub sb) -> okgrid (sf_grid sf) -> sb_topo sb = sf_grid sf ->
  List.length (sb_sub sb) = List.length (sf_grid sf) -> (gx (sf_grid sf) <= gx (sb_sub sb))%nat -> (gy (sf_grid sf) <= gy (sb_sub sb))%nat ->
  knows_bounds method -> keeps_low sb sf off gr opt ->
  minimize_bounded sb sf procs off init method gr (LText "auto") u opt y = (y', Ret r) ->
  exists g, y_gap y' = Some g /\ a_shape g = sf_grid sf /\ forall i j, on_grid (sf_grid sf) i j ->
    0 <= a_val g i j /\ a_val g i j = a_val (o_x r) i j - a_val (heights sf) i j - off.
Proof.
  intros sb sf procs off init method gr u opt y y' r OK OT T LN LX LY KB KL H.
  destruct (bounded_inv _ _ _ _ _ _ _ _ _ _ _ _ _ H) as (x0 & lm & r0 & y1 & g & e & f & EL & EX & OX & _ & CG & _ & YG & _).
  cbn [lower_of] in EL. rewrite String.eqb_refl in EL. injection EL as <-. apply knows_spec in KB. rewrite KB in EX.
  destruct (output_inv _ _ _ OX) as (SX & _ & UX).
  destruct (covered_gap sb sf (o_x r) off OT T) as (d & D1 & D2).
  { split; [rewrite SX; exact LN|]. rewrite SX. split; assumption. }
  rewrite D1 in CG. injection CG as <-. exists (mkArr (sf_grid sf) d). split; [exact YG|]. split; [reflexivity|].
  intros i j G. cbn [a_val]. rewrite (D2 i j G). split; [|reflexivity]. destruct G as (Hi & Hj).
  assert (HB : exists b, b_low b = filled (mkMarr (sb_sub sb) (lbounds_from_heights sb sf off)) NegInf /\ exec (objective sb sf off gr) (primal_hessian_product sb) (opt x0 (Some b)) y = (y1, Ret r0)).
  { destruct u as [u|]; cbn [reshape_bounds] in EX; (eexists; split; [|exact EX]; reflexivity). }
  destruct HB as (b & BL & EB).
  assert (KK : (i * gy (sb_sub sb) + j < points (sb_sub sb))%nat) by (rewrite (npts_grid _ OK); nia).
  assert (D : ((i * gy (sb_sub sb) + j) / gy (sb_sub sb) = i)%nat) by (rewrite (Nat.add_comm _ j), Nat.div_add, Nat.div_small by lia; reflexivity).
  assert (MD : ((i * gy (sb_sub sb) + j) mod gy (sb_sub sb) = j)%nat) by (rewrite (Nat.add_comm _ j), Nat.mod_add, Nat.mod_small by lia; reflexivity).
  pose proof (KL x0 b r0 (ex_intro _ y (ex_intro _ y1 EB)) _ (a_val (heights sf) i j + off) KK) as K. rewrite UX. cbn [a_val]. unfold unflat.
  cut (a_val (heights sf) i j + off <= entry (o_x r0) (i * gy (sb_sub sb) + j)); [lra|]. apply K. rewrite BL. unfold filled. cbn [m_shape m_val].
  fold (gy (sb_sub sb)). rewrite D, MD. unfold lbounds_from_heights. rewrite T. fold (gx (sf_grid sf)) (gy (sf_grid sf)).
  destruct (Nat.ltb_spec i (gx (sf_grid sf))); [|lia]. destruct (Nat.ltb_spec j (gy (sf_grid sf))); [|lia]. reflexivity.
Qed.
Print Assumptions C108_auto.

(** An optimiser whose results satisfy the optimality conditions of its lower bounds: the
    gradient it reports is that of the objective, it is not negative at finite bounds, zero
    elsewhere and zero wherever the bound is not attained. *)
Definition optimal_low sb sf off (opt : arr -> option bounds -> program) : Prop :=
  forall x0 b r0, b_upp b = (fun _ => PosInf) -> result_of sb sf off true (opt x0 (Some b)) r0 ->
    (exists E G, snd (objective sb sf off true (o_x r0) fresh) = Ret (E, Some G)
       /\ forall k, (k < points (sb_sub sb))%nat -> entry (o_jac r0) k = entry G k)
    /\ forall k, (k < points (sb_sub sb))%nat -> match b_low b k with
       | Fin v => v <= entry (o_x r0) k /\ 0 <= entry (o_jac r0) k /\ (v < entry (o_x r0) k -> entry (o_jac r0) k = 0)
       | _ => entry (o_jac r0) k = 0 end.
(** Then the state solves the contact problem: no negative gap, only pressure on the
    substrate, none where there is a gap and none outside the topography. *)
Theorem C108_contact : forall sb sf procs off init method opt y y' r, okgrid (sb_sub sb) -> okgrid (sf_grid sf) -> sb_topo sb = sf_grid sf ->
  List.length (sb_sub sb) = List.length (sf_grid sf) -> (gx (sf_grid sf) <= gx (sb_sub sb))%nat -> (gy (sf_grid sf) <= gy (sb_sub sb))%nat ->
  knows_bounds method -> optimal_low sb sf off opt ->
  minimize_bounded sb sf procs off init method true (LText "auto") None opt y = (y', Ret r) ->
  exists g e f, y_gap y' = Some g /\ y_force y' = Some f /\ sb_eval sb (o_x r) true true = Ret (e, Some f)
   /\ (forall i j, on_grid (sf_grid sf) i j ->
        0 <= a_val g i j /\ entry f (i * gy (sb_sub sb) + j) <= 0 /\ a_val g i j * entry f (i * gy (sb_sub sb) + j) = 0)
   /\ (forall i j, on_grid (sb_sub sb) i j -> ~ on_grid (sf_grid sf) i j -> entry f (i * gy (sb_sub sb) + j) = 0).
Proof.
  intros sb sf procs off init method opt y y' r OK OT T LN LX LY KB OL H.
  destruct (bounded_inv _ _ _ _ _ _ _ _ _ _ _ _ _ H) as (x0 & lm & r0 & y1 & g & e & f & EL & EX & OX & _ & CG & EV & YG & _ & _ & _ & YF).
  cbn [lower_of] in EL. rewrite String.eqb_refl in EL. injection EL as <-. apply knows_spec in KB. rewrite KB in EX. cbn [reshape_bounds] in EX.
  destruct (output_inv _ _ _ OX) as (SX & PX & UX).
  match type of EX with exec _ _ (opt _ (Some ?b)) _ = _ =>
    destruct (OL x0 b r0 eq_refl (ex_intro _ y (ex_intro _ y1 EX))) as ((E & G & OB & GE) & KKT) end. cbn [b_low] in KKT.
  destruct (covered_gap sb sf (o_x r) off OT T) as (d & D1 & D2).
  { split; [rewrite SX; exact LN|]. rewrite SX. split; assumption. }
  rewrite D1 in CG. injection CG as <-.
  unfold objective, mbind at 1, lift at 1 in OB. rewrite (reshape_ok _ _ PX), <- UX in OB. unfold mbind, evaluate_sys, lift, upd, mret in OB. unfold mbind, lift, upd, mret in OB.
  rewrite D1, EV in OB. cbn [fst snd] in OB. unfold eg in OB. cbn [fst snd] in OB. destruct f as [f|]; [|discriminate]. injection OB as <- <-.
  assert (FJ : forall k, (k < points (sb_sub sb))%nat -> entry f k = - entry (o_jac r0) k).
  { intros k Hk. rewrite (GE k Hk), entry_map, entry_ravel. ring. }
  exists (mkArr (sf_grid sf) d), e, f. split; [exact YG|]. split; [exact YF|]. split; [exact EV|].
  assert (AT : forall i j, on_grid (sb_sub sb) i j -> (i * gy (sb_sub sb) + j < points (sb_sub sb))%nat
     /\ filled (mkMarr (sb_sub sb) (lbounds_from_heights sb sf off)) NegInf (i * gy (sb_sub sb) + j)
        = match lbounds_from_heights sb sf off i j with Some v => Fin v | None => NegInf end).
  { intros i j (Hi & Hj). split; [rewrite (npts_grid _ OK); nia|]. unfold filled. cbn [m_shape m_val]. fold (gy (sb_sub sb)).
    rewrite (Nat.add_comm _ j), Nat.div_add, Nat.mod_add, Nat.div_small, Nat.mod_small by lia. reflexivity. }
  split.
  - intros i j (Hi & Hj). assert (HS : on_grid (sb_sub sb) i j) by (split; lia). destruct (AT i j HS) as (KK & FL).
    cbn [a_val]. rewrite (D2 i j (conj Hi Hj)). specialize (KKT _ KK). rewrite FL in KKT. unfold lbounds_from_heights in KKT. rewrite T in KKT. fold (gx (sf_grid sf)) (gy (sf_grid sf)) in KKT.
    destruct (Nat.ltb_spec i (gx (sf_grid sf))); [|lia]. destruct (Nat.ltb_spec j (gy (sf_grid sf))); [|lia]. cbn [andb] in KKT.
    destruct KKT as (K1 & K2 & K3). rewrite (FJ _ KK). rewrite UX. cbn [a_val]. unfold unflat.
    split; [lra|]. split; [lra|]. destruct K1 as [K1|K1]; [rewrite (K3 K1); ring|rewrite <- K1; ring].
  - intros i j HS NT. destruct (AT i j HS) as (KK & FL). specialize (KKT _ KK). rewrite FL in KKT. unfold lbounds_from_heights in KKT. rewrite T in KKT. fold (gx (sf_grid sf)) (gy (sf_grid sf)) in KKT.
    rewrite (FJ _ KK). destruct (Nat.ltb_spec i (gx (sf_grid sf))), (Nat.ltb_spec j (gy (sf_grid sf))); cbn [andb] in KKT; try (rewrite KKT; ring).
    exfalso. apply NT. split; assumption.
Qed.
Print Assumptions C108_contact.

Lemma mbind_ext : forall T W (c : M T) (k k' : T -> M W), (forall x, k x = k' x) -> forall y, mbind c k y = mbind c k' y.
Proof. intros T W c k k' H y. replace k' with k by (apply functional_extensionality; exact H). reflexivity. Qed.
(** All other methods do not get the bounds: the call is the one without bounds. *)
Theorem C108_other_methods : forall sb sf procs off init method gr l u opt y, ~ knows_bounds method ->
  (forall t, l = LText t -> t = "auto"%string) ->
  minimize_bounded sb sf procs off init method gr l u opt y = minimize_bounded sb sf procs off init method gr LNone None opt y.
Proof.
  intros sb sf procs off init method gr l u opt y NK LT. unfold minimize_bounded. destruct (Nat.ltb 1 procs); [reflexivity|].
  assert (EB : existsb (String.eqb method) bounded_minimizers = false).
  { destruct (existsb (String.eqb method) bounded_minimizers) eqn:E; [|reflexivity]. apply knows_spec in E. contradiction. }
  rewrite EB. apply mbind_ext. intros x0. destruct l as [|t|m]; [reflexivity| |reflexivity]. rewrite (LT t eq_refl). reflexivity.
Qed.
Print Assumptions C108_other_methods.

(** Without bounds the call is that of C107, for every method. *)
Theorem C108_default : forall sb sf procs off init method opt y, (procs <= 1)%nat ->
  minimize_bounded sb sf procs off init method true LNone None opt y = base_minimize_proxy sb sf off init (fun x0 => opt x0 None) y.
Proof.
  intros sb sf procs off init method opt y P. unfold minimize_bounded, base_minimize_proxy. destruct (Nat.ltb_spec 1 procs); [lia|].
  apply mbind_ext. intros x0. cbn [lower_of reshape_bounds].
  destruct (existsb (String.eqb method) bounded_minimizers); reflexivity.
Qed.
Print Assumptions C108_default.

(** Errors before the optimiser is started, which leave the system as it is: more than one
    process; the size of the initial displacements; another text than "auto". *)
Theorem C108_errors : forall sb sf procs off init method gr l u opt y,
  ((1 < procs)%nat -> minimize_bounded sb sf procs off init method gr l u opt y = (y, Exc ValueErr))
  /\ ((procs <= 1)%nat -> (forall d, init = Some d -> points (a_shape d) <> points (sb_sub sb)) -> init <> None ->
      minimize_bounded sb sf procs off init method gr l u opt y = (y, Exc IncompatibleResolutionErr))
  /\ (forall t, (procs <= 1)%nat -> (forall d, init = Some d -> points (a_shape d) = points (sb_sub sb)) ->
      l = LText t -> t <> "auto"%string -> minimize_bounded sb sf procs off init method gr l u opt y = (y, Exc ValueErr)).
Proof.
  intros sb sf procs off init method gr l u opt y. unfold minimize_bounded. repeat split.
  - intros P. destruct (Nat.ltb_spec 1 procs); [reflexivity|lia].
  - intros P D N. destruct (Nat.ltb_spec 1 procs); [lia|]. destruct init as [d|]; [|contradiction]. specialize (D d eq_refl).
    unfold mbind at 1, lift at 1, shape_minimisation_input. destruct (Nat.eqb_spec (size (sb_sub sb)) (size (a_shape d))) as [E|E]; [exfalso; apply D; symmetry; exact E|reflexivity].
  - intros t P D L A. destruct (Nat.ltb_spec 1 procs); [lia|]. subst l.
    unfold mbind at 1, lift at 1, shape_minimisation_input. destruct init as [d|].
    + specialize (D d eq_refl). destruct (Nat.eqb_spec (size (sb_sub sb)) (size (a_shape d))) as [E|E]; [|exfalso; apply E; symmetry; exact D].
      unfold mbind at 1, lift at 1, lower_of. destruct (String.eqb_spec t "auto"); [contradiction|reflexivity].
    + cbn [a_shape]. rewrite Nat.eqb_refl. unfold mbind at 1, lift at 1, lower_of. destruct (String.eqb_spec t "auto"); [contradiction|reflexivity].
Qed.
Print Assumptions C108_errors.

(** ** Optimisers *)
Definition no_plastic : zone := fun _ _ => false.
Lemma run_ok : forall s sf method l u opt lm z (F : value -> res oresult), construct hsA = Ret s -> sf_grid sf = a_grid hsA ->
  lower_of (periodic s) sf 1 l = Ret lm ->
  opt (ravel (mkArr (sb_sub (periodic s)) (fun _ _ => 0))) (if existsb (String.eqb method) bounded_minimizers then reshape_bounds lm u else None)
    = Ask z (fun v => Finish (F v)) ->
  size (a_shape z) = points (a_grid hsA) ->
  (forall e v, same_entries (points (a_grid hsA)) v (mkArr (a_grid hsA) (fun i j => - val_of (evaluate_force s) (a_grid hsA) (unflat (a_grid hsA) z) i j)) ->
     exists sc, F (e, Some v) = Ret (mkOres sc z v 0 no_plastic)) ->
  exists y' r, minimize_bounded (periodic s) sf 1 1 None method true l u opt fresh = (y', Ret r)
    /\ forall k, entry (o_x r) k = entry z k.
Proof.
  intros s sf method l u opt lm z F H SF EL EO PZ HF. destruct (per_shapes hsA s H) as (T & U & _). pose proof (per_grid hsA s H) as OK.
  unfold minimize_bounded. cbn [Nat.ltb Nat.leb]. unfold mbind at 1, lift at 1, shape_minimisation_input. cbn [a_shape]. rewrite Nat.eqb_refl.
  unfold mbind at 1, lift at 1. rewrite EL. unfold mbind at 1. rewrite EO. cbn [exec]. unfold mbind at 1.
  destruct (objective_value (periodic s) sf _ _ OK T U SF (per_force hsA s H) (per_quad hsA s H) 1 true z fresh PZ) as (v & y1 & E1 & SV & SG).
  rewrite E1. match goal with |- context [F (?e, Some v)] => destruct (HF e v SG) as (sc & EF) end. cbn [exec]. unfold lift at 1. rewrite EF.
  unfold mbind, lift, upd, mret, shape_minimisation_output. cbn [o_x o_jac o_success o_offset o_plastic].
  rewrite U, PZ, Nat.eqb_refl, (reshape_ok _ _ PZ).
  match goal with |- context [evaluate_sys _ _ (mkArr _ ?w) _ _ _ ?y] =>
    destruct (evaluate_value (periodic s) sf _ _ OK T U SF (per_force hsA s H) (per_quad hsA s H) w 1 true y) as (d & vv & y2 & E2 & _) end.
  rewrite E2, SV. cbn [size fold_right]. rewrite Nat.mul_1_r, Nat.eqb_refl.
  rewrite reshape_ok by (rewrite SV; cbn [size fold_right]; rewrite Nat.mul_1_r; reflexivity). do 2 eexists. split; [reflexivity|].
  intros k. cbn [o_x]. rewrite (entry_unflat _ _ _ OK). reflexivity.
Qed.

(** Projects the initial values on the bounds; gives up if there is nothing between them. *)
Definition feasible (n : nat) (b : bounds) : bool := forallb (fun k => match b_low b k, b_upp b k with
  | Fin v, Fin w => if Rle_dec v w then true else false | _, _ => true end) (seq 0 n).
Definition project (x0 : arr) (b : bounds) : arr := mkArr [size (a_shape x0)] (fun k _ =>
  let t := match b_low b k with Fin v => Rmax v (entry x0 k) | _ => entry x0 k end in
  match b_upp b k with Fin w => Rmin w t | _ => t end).
Definition answer (z : arr) (v : value) : res oresult :=
  match snd v with Some G => Ret (mkOres false z G 0 no_plastic) | None => Exc ValueErr end.
Definition projecting (n : nat) (x0 : arr) (b : option bounds) : program :=
  match b with
  | None => Ask x0 (fun v => Finish (answer x0 v))
  | Some b => if feasible n b then Ask (project x0 b) (fun v => Finish (answer (project x0 b) v)) else Finish (Exc ValueErr)
  end.
Lemma projecting_inv : forall sb sf off gr n x0 b r0, result_of sb sf off gr (projecting n x0 (Some b)) r0 -> feasible n b = true /\ o_x r0 = project x0 b.
Proof.
  intros sb sf off gr n x0 b r0 (y & y1 & E). unfold projecting in E. destruct (feasible n b); [|discriminate]. split; [reflexivity|].
  cbn [exec] in E. unfold mbind in E. destruct (objective sb sf off gr (project x0 b) y) as [y2 [[e [G|]]|e]]; cbn [exec] in E; unfold lift, answer in E; cbn [snd] in E; try discriminate.
  injection E as _ <-. reflexivity.
Qed.
Lemma entry_row : forall n f k, entry (mkArr [n] f) k = f k 0%nat.
Proof. intros n f k. unfold entry. cbn [a_shape a_val nth]. rewrite Nat.div_1_r, Nat.mod_1_r. reflexivity. Qed.
Lemma projecting_low : forall sb sf off gr, keeps_low sb sf off gr (projecting (points (sb_sub sb))).
Proof.
  intros sb sf off gr x0 b r0 HR k v Hk L. destruct (projecting_inv _ _ _ _ _ _ _ _ HR) as (FE & ->). unfold project. rewrite entry_row, L.
  unfold feasible in FE. rewrite forallb_forall in FE. specialize (FE k). rewrite in_seq in FE. specialize (FE ltac:(lia)). rewrite L in FE.
  pose proof (Rmax_l v (entry x0 k)). destruct (b_upp b k) as [|w|]; try assumption. destruct (Rle_dec v w); [|discriminate]. apply Rmin_glb; assumption.
Qed.
Lemma projecting_upp : forall sb sf off gr, keeps_upp sb sf off gr (projecting (points (sb_sub sb))).
Proof.
  intros sb sf off gr x0 b r0 HR k v Hk L. destruct (projecting_inv _ _ _ _ _ _ _ _ HR) as (FE & ->). unfold project. rewrite entry_row, L. apply Rmin_l.
Qed.

Example C108_nonvacuous : exists s, construct hsA = Ret s /\ okgrid (sb_sub (periodic s)) /\ okgrid (sf_grid hsurf) /\ sb_topo (periodic s) = sf_grid hsurf
  /\ sb_sub (periodic s) = sf_grid hsurf
  /\ keeps_low (periodic s) hsurf 1 true (projecting (points (sb_sub (periodic s)))) /\ keeps_upp (periodic s) hsurf 1 true (projecting (points (sb_sub (periodic s))))
  /\ (exists y' r, minimize_bounded (periodic s) hsurf 1 1 None "TNC" true (LText "auto") None (projecting (points (sb_sub (periodic s)))) fresh = (y', Ret r))
  /\ (exists y' r, minimize_bounded (periodic s) hsurf 1 1 None "SLSQP" true
        (LArr (mkMarr (sb_sub (periodic s)) (fun i _ => if Nat.eqb i 0 then None else Some (1 / 2)))) (Some (mkMarr (sb_sub (periodic s)) (fun _ j => if Nat.eqb j 0 then None else Some 2)))
        (projecting (points (sb_sub (periodic s)))) fresh = (y', Ret r)).
Proof.
  destruct hsA_ok as (s & H). destruct (per_shapes hsA s H) as (T & U & _). pose proof (per_grid hsA s H) as OK.
  assert (OKS : okgrid (sb_sub (periodic s))) by (rewrite U; exact OK). exists s. split; [exact H|]. split; [exact OKS|]. split; [exact OK|]. split; [exact T|]. split; [exact U|].
  split; [apply projecting_low|]. split; [apply projecting_upp|].
  assert (PP : forall x b, size (a_shape x) = points (a_grid hsA) -> size (a_shape (project x b)) = points (a_grid hsA)).
  { intros x b E. unfold project. cbn [a_shape size fold_right]. rewrite Nat.mul_1_r. exact E. }
  assert (PR : size (a_shape (ravel (mkArr (sb_sub (periodic s)) (fun _ _ => 0)))) = points (a_grid hsA)) by (cbn [ravel a_shape]; rewrite U; reflexivity).
  split.
  - edestruct (run_ok s hsurf "TNC"%string (LText "auto") None (projecting (points (sb_sub (periodic s))))) as (y' & r & E & _); [exact H|reflexivity|reflexivity| | | |exists y', r; exact E].
    + cbn [existsb bounded_minimizers String.eqb Ascii.eqb Bool.eqb orb reshape_bounds]. unfold projecting.
      match goal with |- (if feasible ?n ?b then _ else _) = _ => assert (FE : feasible n b = true) end.
      { unfold feasible. apply forallb_forall. intros k _. cbn [b_low b_upp]. destruct (filled _ _ k); reflexivity. }
      rewrite FE. reflexivity.
    + apply PP. exact PR.
    + intros e v _. exists false. reflexivity.
  - edestruct (run_ok s hsurf "SLSQP"%string (LArr (mkMarr (sb_sub (periodic s)) (fun i _ => if Nat.eqb i 0 then None else Some (1 / 2)))) (Some (mkMarr (sb_sub (periodic s)) (fun _ j => if Nat.eqb j 0 then None else Some 2))) (projecting (points (sb_sub (periodic s))))) as (y' & r & E & _); [exact H|reflexivity|reflexivity| | | |exists y', r; exact E].
    + cbn [existsb bounded_minimizers String.eqb Ascii.eqb Bool.eqb orb reshape_bounds]. unfold projecting.
      match goal with |- (if feasible ?n ?b then _ else _) = _ => assert (FE : feasible n b = true) end.
      { unfold feasible. apply forallb_forall. intros k _. cbn [b_low b_upp]. unfold filled. cbn [m_shape m_val].
        destruct (Nat.eqb _ 0); [reflexivity|]. destruct (Nat.eqb _ 0); [reflexivity|]. destruct (Rle_dec (1 / 2) 2); [reflexivity|lra]. }
      rewrite FE. reflexivity.
    + apply PP. exact PR.
    + intros e v _. exists false. reflexivity.
Qed.

(** With a method that does not know bounds, [lbounds="auto"] has no effect: the optimiser that
    keeps all bounds it is given leaves the surfaces penetrating. *)
Theorem C108_penetrates : exists s y' r g, construct hsA = Ret s
  /\ keeps_low (periodic s) hsurf 1 true (projecting (points (sb_sub (periodic s))))
  /\ minimize_bounded (periodic s) hsurf 1 1 None "CG" true (LText "auto") None (projecting (points (sb_sub (periodic s)))) fresh = (y', Ret r)
  /\ y_gap y' = Some g /\ a_val g 0%nat 0%nat = -1.
Proof.
  destruct hsA_ok as (s & H). destruct (per_shapes hsA s H) as (T & U & _). pose proof (per_grid hsA s H) as OK. exists s.
  assert (PR : size (a_shape (ravel (mkArr (sb_sub (periodic s)) (fun _ _ => 0)))) = points (a_grid hsA)) by (cbn [ravel a_shape]; rewrite U; reflexivity).
  edestruct (run_ok s hsurf "CG"%string (LText "auto") None (projecting (points (sb_sub (periodic s))))) as (y' & r & E & EX); [exact H|reflexivity|reflexivity|reflexivity|exact PR| |].
  { intros e v _. exists false. reflexivity. }
  destruct (bounded_inv _ _ _ _ _ _ _ _ _ _ _ _ _ E) as (_ & _ & r0 & _ & g & _ & _ & _ & _ & OX & _ & CG & _ & YG & _).
  exists y', r, g. split; [exact H|]. split; [apply projecting_low|]. split; [exact E|]. split; [exact YG|].
  destruct (output_inv _ _ _ OX) as (SX & _ & _).
  destruct (covered_gap (periodic s) hsurf (o_x r) 1 OK T) as (d & D1 & D2).
  { split; rewrite SX, U; [reflexivity|]. split; apply Nat.le_refl. }
  rewrite D1 in CG. injection CG as <-. cbn [a_val]. rewrite D2 by (split; cbn; lia).
  pose proof (EX 0%nat) as E0. unfold entry at 1 in E0. rewrite SX, Nat.div_0_l, Nat.mod_0_l in E0 by (rewrite U; cbn; lia). rewrite E0.
  rewrite entry_ravel. unfold entry. cbn. lra.
Qed.
Print Assumptions C108_penetrates.

(** An optimiser that checks the optimality conditions of [z], and full contact with a flat surface. *)
Definition optimal_at (n : nat) (b : bounds) (z G : arr) : bool := forallb (fun k => match b_low b k with
  | Fin v => (if Rle_dec v (entry z k) then true else false) && (if Rle_dec 0 (entry G k) then true else false)
             && ((if Rle_dec (entry z k) v then true else false) || (if Req_EM_T (entry G k) 0 then true else false))
  | _ => if Req_EM_T (entry G k) 0 then true else false end) (seq 0 n).
Definition checking (n : nat) (z : arr) (x0 : arr) (b : option bounds) : program :=
  Ask z (fun v => Finish (match b, snd v with
    | Some b, Some G => if optimal_at n b z G then Ret (mkOres true z G 0 no_plastic) else Exc ValueErr
    | _, _ => Exc ValueErr end)).
Lemma checking_optimal : forall sb sf off z, optimal_low sb sf off (checking (points (sb_sub sb)) z).
Proof.
  intros sb sf off z x0 b r0 _ (y & y1 & E). unfold checking in E. cbn [exec] in E. unfold mbind in E.
  destruct (objective_run sb sf off true z y) as (y2 & E2 & _). rewrite E2 in E.
  destruct (snd (objective sb sf off true z fresh)) as [[e [G|]]|e] eqn:O; cbn [exec snd] in E; unfold lift in E; try discriminate.
  destruct (optimal_at (points (sb_sub sb)) b z G) eqn:OA; [|discriminate]. injection E as _ <-. cbn [o_x o_jac].
  split; [exists e, G; split; [exact O|reflexivity]|]. intros k Hk. unfold optimal_at in OA. rewrite forallb_forall in OA.
  specialize (OA k). rewrite in_seq in OA. specialize (OA ltac:(lia)). destruct (b_low b k) as [|v|].
  - destruct (Req_EM_T (entry G k) 0); [assumption|discriminate].
  - apply andb_true_iff in OA. destruct OA as (OA & O3). apply andb_true_iff in OA. destruct OA as (O1 & O2).
    destruct (Rle_dec v (entry z k)); [|discriminate]. destruct (Rle_dec 0 (entry G k)); [|discriminate]. split; [assumption|]. split; [assumption|].
    intros L. apply orb_true_iff in O3. destruct O3 as [O3|O3]; [destruct (Rle_dec (entry z k) v); [lra|discriminate]|destruct (Req_EM_T (entry G k) 0); [assumption|discriminate]].
  - destruct (Req_EM_T (entry G k) 0); [assumption|discriminate].
Qed.
Definition hflat := mkSurface (a_grid hsA) (fun _ _ => 0) (fun _ _ => 0) 1 1.
Example C108_contact_nonvacuous : exists s opt y' r, construct hsA = Ret s /\ optimal_low (periodic s) hflat 1 opt
  /\ minimize_bounded (periodic s) hflat 1 1 None "L-BFGS-B" true (LText "auto") None opt fresh = (y', Ret r)
  /\ forall k, entry (o_x r) k = 1.
Proof.
  destruct hsA_ok as (s & H). destruct (per_shapes hsA s H) as (T & U & _). pose proof (per_grid hsA s H) as OK.
  set (z := mkArr [points (a_grid hsA)] (fun _ _ => 1)). exists s, (checking (points (sb_sub (periodic s))) z).
  destruct (multiplier_wave _ _ _ _ (force_multiplier hsA s H) 0 0 0 ltac:(cbn; lia) ltac:(cbn; lia)) as (f & F1 & F2).
  assert (PW : plane_wave (a_grid hsA) 0 0 0 = (fun _ _ => 1)).
  { apply functional_extensionality; intro i; apply functional_extensionality; intro j. unfold plane_wave. cbn [INR].
    replace (2 * PI * (0 * INR i / INR (gx (a_grid hsA)) + 0 * INR j / INR (gy (a_grid hsA))) + 0) with 0; [apply cos_0|]. unfold Rdiv. ring. }
  rewrite PW in F1, F2.
  assert (NP : 0 <= s_ss s 0 0) by (apply (ss_nonneg hsA s H hsA_pos); split; cbn; lia).
  destruct (construct_inv hsA s H) as (HN & _). pose proof (area_pos _ _ HN hsA_pos) as AP.
  edestruct (run_ok s hflat "L-BFGS-B"%string (LText "auto") None (checking (points (sb_sub (periodic s))) z)) as (y' & r & E & EX); [exact H|reflexivity|reflexivity|reflexivity| | |].
  { unfold z. cbn [a_shape size fold_right]. apply Nat.mul_1_r. }
  2:{ exists y', r. split; [exact H|]. split; [apply checking_optimal|]. split; [exact E|]. intros k. rewrite EX. reflexivity. }
  intros e v SV. exists true. cbn [existsb bounded_minimizers String.eqb Ascii.eqb Bool.eqb orb reshape_bounds snd].
  match goal with |- (if optimal_at ?n ?b z v then _ else _) = _ => assert (OA : optimal_at n b z v = true) end; [|rewrite OA; reflexivity].
  unfold optimal_at. apply forallb_forall. intros k Hk. apply in_seq in Hk. rewrite U in Hk. assert (Hk' : (k < points (a_grid hsA))%nat) by lia.
  pose proof (on_grid_k _ _ OK Hk') as (G1 & G2). cbn [b_low]. unfold filled. cbn [m_shape m_val]. rewrite U. fold (gy (a_grid hsA)).
  unfold lbounds_from_heights. rewrite T. fold (gx (a_grid hsA)) (gy (a_grid hsA)).
  apply Nat.ltb_lt in G1, G2. rewrite G1, G2. cbn [andb]. apply Nat.ltb_lt in G1, G2.
  replace (entry z k) with 1 by reflexivity. cbn [heights a_val hflat sf_base sf_plastic].
  destruct (Rle_dec (0 + 0 + 1) 1); [|lra]. cbn [andb]. destruct (Rle_dec 1 (0 + 0 + 1)); [|lra]. cbn [orb]. rewrite andb_true_r.
  destruct (Rle_dec 0 (entry v k)) as [|N]; [reflexivity|]. exfalso. apply N. rewrite (SV k Hk'), (entry_mk _ _ k OK).
  change (unflat (a_grid hsA) z) with (fun _ _ : nat => 1). unfold val_of. rewrite F1, (F2 _ _ (conj G1 G2)).
  unfold SS. cbn [Complex.Re Complex.RtoC fst]. nra.
Qed.
