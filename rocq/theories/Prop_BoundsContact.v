(** * C108 Minimisation with bounds on periodic substrates: the solution of the contact problem *)
From Coq Require Import Reals Lia Lra List Arith Bool FunctionalExtensionality String.
From Verif Require Import Py FFT_Base HalfSpace_Spec HalfSpace_Model HalfSpace_Proofs HalfSpace_Results HalfSpace_Results2 HalfSpace_Witness Free_Model
  Systems_Model Systems_Spec Systems_Proofs Systems_Results Systems_Results2 Prop_Systems Prop_Minimizer Bounds_Model Prop_Bounds.
From Verif Require Import Signorini_Spec Substrate_Contact_Spec.
From Verif Require Prop_HalfSpace Prop_SubstrateContact.
From Coq Require Import List.
Import ListNotations.
Local Open Scope R_scope.

(** The state is in contact in the sense of C93. *)
Theorem C108_touching : forall a s sf procs off init method opt y y' r, construct a = Ret s -> pos_args a -> a_q0 a <> Some 0 -> sf_grid sf = a_grid a ->
  knows_bounds method -> optimal_low (periodic s) sf off opt ->
  minimize_bounded (periodic s) sf procs off init method true (LText "auto") None opt y = (y', Ret r) ->
  exists f, y_force y' = Some f /\ a_shape f = a_grid a
    /\ touching s (a_grid a) (a_val (heights sf)) off (fun i j => - a_val f i j) (a_val (o_x r)).
Proof.
  intros a s sf procs off init method opt y y' r H PA Q SF KB OL RUN. destruct (per_shapes a s H) as (T & U & _). pose proof (per_grid a s H) as OK.
  destruct (C108_contact (periodic s) sf procs off init method opt y y' r) as (g & e & f & YG & YF & EV & CT & _); try assumption.
  { rewrite U; exact OK. } { rewrite SF; exact OK. } { rewrite SF; exact T. } { rewrite SF, U; reflexivity. } { rewrite SF, U; apply Nat.le_refl. } { rewrite SF, U; apply Nat.le_refl. }
  destruct (bounded_inv _ _ _ _ _ _ _ _ _ _ _ _ _ RUN) as (_ & _ & r0 & _ & g' & _ & _ & _ & _ & OX & _ & CG & _ & YG' & _).
  rewrite YG in YG'. injection YG' as <-.
  destruct (output_inv _ _ _ OX) as (SX & _ & _). rewrite U in SX.
  destruct (covered_gap (periodic s) sf (o_x r) off) as (d & D1 & D2); [rewrite SF; exact OK|rewrite SF; exact T| |].
  { rewrite SF. split; rewrite SX; [reflexivity|]. split; apply Nat.le_refl. }
  rewrite D1 in CG. injection CG as <-. rewrite SF in D2, CT. cbn [a_val] in CT. rewrite U in CT.
  destruct (o_x r) as [sh w]. cbn [a_shape a_val] in *. subst sh.
  destruct (evaluate_energy_of a s w H) as (f' & F1 & F2 & _). cbn [periodic sb_eval] in EV. rewrite F1 in EV. injection EV as _ ->.
  destruct (so_ret _ _ _ (per_force a s H) w) as (v & V1 & _). cbn [periodic sb_force] in V1. rewrite F2 in V1. injection V1 as ->.
  exists (mkArr (a_grid a) v). split; [exact YF|]. split; [reflexivity|]. split.
  - destruct (proj2 (Prop_HalfSpace.C20_inverse a s w H PA Q)) as (uu & f2 & I1 & I2 & I3). rewrite F2 in I1. injection I1 as <-.
    exists f2. split; [|intros i j G; symmetry; apply I3; exact G].
    cbn [a_val]. replace (fun x y0 : nat => - - v x y0) with v; [exact I2|].
    apply functional_extensionality; intro; apply functional_extensionality; intro. symmetry. apply Ropp_involutive.
  - intros i j G. destruct (CT i j G) as (C1 & C2 & C3). rewrite (D2 i j G) in C1, C3. destruct G as (Gi & Gj). rewrite (entry_grid _ _ _ _ Gj) in C2, C3. cbn [a_val].
    unfold gap. split; [lra|]. split; [exact C1|]. rewrite Rmult_comm. rewrite Ropp_mult_distr_r_reverse, C3. ring.
Qed.
Print Assumptions C108_touching.

(** Hence all such optimisers and methods return the same displacements and forces, whatever
    they start from: those of the contact problem (and of the solver of C93). *)
Theorem C108_unique : forall a s sf off, construct a = Ret s -> pos_args a -> a_q0 a <> Some 0 -> sf_grid sf = a_grid a ->
  exists F w, touching s (a_grid a) (a_val (heights sf)) off F w
  /\ forall procs init method opt y y' r, knows_bounds method -> optimal_low (periodic s) sf off opt ->
  minimize_bounded (periodic s) sf procs off init method true (LText "auto") None opt y = (y', Ret r) ->
  exists f, y_force y' = Some f /\ forall i j, on_grid (a_grid a) i j -> a_val f i j = - F i j /\ a_val (o_x r) i j = w i j.
Proof.
  intros a s sf off H PA Q SF.
  destruct (Prop_SubstrateContact.C93_one_state a s (a_val (heights sf)) off H PA Q) as (F & w & TC & UN). exists F, w. split; [exact TC|].
  intros procs init method opt y y' r KB OL RUN.
  destruct (C108_touching a s sf procs off init method opt y y' r H PA Q SF KB OL RUN) as (f & YF & _ & TF).
  exists f. split; [exact YF|]. intros i j G. destruct (UN _ _ TF i j G) as (E1 & E2). split; [rewrite <- E1; ring|exact E2].
Qed.
Print Assumptions C108_unique.
Example C108_touching_nonvacuous : pos_args hsA /\ a_q0 hsA <> Some 0 /\ sf_grid hflat = a_grid hsA
  /\ exists s opt y' r, construct hsA = Ret s /\ optimal_low (periodic s) hflat 1 opt
  /\ minimize_bounded (periodic s) hflat 1 1 None "L-BFGS-B" true (LText "auto") None opt fresh = (y', Ret r).
Proof.
  split; [exact hsA_pos|]. split; [discriminate|]. split; [reflexivity|].
  destruct C108_contact_nonvacuous as (s & opt & y' & r & A & B & D & _). exists s, opt, y', r. auto.
Qed.
