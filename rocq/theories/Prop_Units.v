(** * C98 The contact problem does not depend on the units of length and pressure

    One old unit of length is [lam] new ones, one old unit of pressure [c] new ones:
    modulus, cell, thickness, stiffness of the uniform displacement, heights, offset
    and tolerances are given in the new units. *)
From Coq Require Import Reals Lia Lra List Arith Bool FunctionalExtensionality.
From Coquelicot Require Import Complex.
From Verif Require Import Py FFT_Base HalfSpace_Spec HalfSpace_Model HalfSpace_Proofs HalfSpace_Results HalfSpace_Results2 HalfSpace_Witness
  Systems_Model Contact_Model Contact_Proofs Contact_Results Signorini_Spec Signorini_Base Plastic_Spec
  Substrate_Contact_Spec Substrate_Plastic_Spec Substrate_Work_Spec Substrate_Witness Units_Spec Units_Proofs.
From Verif Require Prop_HalfSpace Prop_Solver Prop_SubstrateContact Prop_SubstrateWork Prop_SubstratePlastic CCG_Model CCG_Real CCG_Spec CCG_Invariance.
From Coq Require Import List.
Import ListNotations.
Local Open Scope R_scope.

Lemma mult_scal_G : forall n m r G f x y, (0 < n)%nat -> (0 < m)%nat -> Herm n m G -> (x < n)%nat -> (y < m)%nat ->
  mult n m (fun k l => RtoC r * G k l)%C f x y = r * mult n m G f x y.
Proof.
  intros n m r G f x y PX PY HG Hx Hy.
  assert (HR : Herm n m (fun k l => RtoC r * G k l)%C).
  { intros k l K L. rewrite Cconj_mult, Cconj_RtoC, (HG k l K L). reflexivity. }
  revert x y Hx Hy. apply (fft2_inj n m PX PY). intros k l K L. rewrite (fft2_mult n m PX PY) by assumption.
  transitivity (fft2 n m (fun x y => r * mult n m G f x y) k l); [|reflexivity].
  rewrite fft2_scal, (fft2_mult n m PX PY) by assumption. ring.
Qed.

Section Units.
  Variables (c lam : R) (a : args) (s : sub).
  Hypothesis C0 : 0 < c.
  Hypothesis L0 : 0 < lam.
  Hypothesis H : construct a = Ret s.
  Hypothesis PA : pos_args a.
  Local Notation a' := (in_new_units c lam a).
  Local Notation s' := (sub_units c lam s).
  Local Notation g := (a_grid a).
  Local Notation fu := (force_unit c lam a).
  Lemma unit_pos : 0 < fu.
  Proof. unfold force_unit. apply Rmult_lt_0_compat; [exact C0|apply pow_lt; exact L0]. Qed.
  Lemma units_construct : construct a' = Ret s'.
  Proof. rewrite construct_units by assumption. rewrite H. reflexivity. Qed.
  Lemma units_pos : pos_args a'.
  Proof.
    destruct PA as (P1 & P2 & P3 & P4 & P5). unfold in_new_units. split; [|split; [|split; [|split]]]; cbn [a_sizes a_young a_poisson a_thick a_q0].
    - intros z IN. apply in_map_iff in IN. destruct IN as (y & <- & IN). apply Rmult_lt_0_compat; auto.
    - apply Rmult_lt_0_compat; assumption.
    - exact P3.
    - intros t E. destruct (a_thick a) as [t0|]; [|discriminate]. injection E as <-. destruct (P4 t0 eq_refl). split; [apply Rmult_lt_0_compat; assumption|assumption].
    - intros q E. destruct (a_q0 a) as [q0|]; [|discriminate]. injection E as <-. apply Rmult_le_pos; [|auto].
      left. apply Rdiv_lt_0_compat; assumption.
  Qed.
  Lemma units_q0 : a_q0 a <> Some 0 -> a_q0 a' <> Some 0.
  Proof.
    intros Q E. cbn in E. destruct (a_q0 a) as [q|]; [|discriminate]. injection E as E. apply Q. f_equal.
    assert (0 < c / lam) by (apply Rdiv_lt_0_compat; assumption). apply Rmult_integral in E. lra.
  Qed.
  Lemma area_p : 0 < area_per_pt (s_hs s).
  Proof. exact (Prop_SubstrateContact.area_pos a s H PA). Qed.
  Lemma disp_units : forall f x y, on_grid g x y -> exists u u', evaluate_disp s (mkArr g f) = Ret u
    /\ evaluate_disp s' (mkArr g (times fu f)) = Ret u' /\ a_val u' x y = lam * a_val u x y.
  Proof.
    intros f x y G. pose proof area_p as AP. pose proof (pow_lt lam (List.length g) L0) as LP.
    destruct (disp_multiplier a s H) as (P1 & P2 & HG & _ & E).
    destruct (disp_multiplier a' s' units_construct) as (_ & _ & _ & _ & E').
    destruct (E (mkArr g f) eq_refl) as (u & E1 & _ & V). destruct (E' (mkArr g (times fu f)) eq_refl) as (u' & E2 & _ & V').
    exists u, u'. split; [exact E1|]. split; [exact E2|]. rewrite (V x y G), (V' x y G). cbn [a_val].
    rewrite (area_units c lam a s H). change (gx (a_grid a')) with (gx g). change (gy (a_grid a')) with (gy g).
    rewrite (mult_ext_G (gx g) (gy g) (GF s') (fun k l => RtoC (lam / c) * GF s k l)%C).
    2:{ intros k l _ _. unfold GF. cbn [sub_units s_gf]. rewrite RtoC_mult. reflexivity. }
    destruct G as [Hx Hy]. rewrite mult_scal_G by assumption. unfold times.
    rewrite mult_scal_r by assumption. unfold force_unit. field. repeat split; lra.
  Qed.
  Lemma force_units : forall f x y, on_grid g x y -> exists u u', evaluate_force s (mkArr g f) = Ret u
    /\ evaluate_force s' (mkArr g (times lam f)) = Ret u' /\ a_val u' x y = fu * a_val u x y.
  Proof.
    intros f x y G. pose proof area_p as AP.
    destruct (force_multiplier a s H) as (P1 & P2 & HG & _ & E).
    destruct (force_multiplier a' s' units_construct) as (_ & _ & _ & _ & E').
    destruct (E (mkArr g f) eq_refl) as (u & E1 & _ & V). destruct (E' (mkArr g (times lam f)) eq_refl) as (u' & E2 & _ & V').
    exists u, u'. split; [exact E1|]. split; [exact E2|]. rewrite (V x y G), (V' x y G). cbn [a_val].
    rewrite (area_units c lam a s H). change (gx (a_grid a')) with (gx g). change (gy (a_grid a')) with (gy g).
    rewrite (mult_ext_G (gx g) (gy g) (SS s') (fun k l => RtoC (c / lam) * SS s k l)%C).
    2:{ intros k l _ _. unfold SS. cbn [sub_units s_ss]. rewrite RtoC_mult. reflexivity. }
    destruct G as [Hx Hy]. rewrite mult_scal_G by assumption. unfold times.
    rewrite mult_scal_r by assumption. unfold force_unit. field. lra.
  Qed.
End Units.

(** ** C98 The constructor: the same errors, an object in the same cases *)
Theorem C98_construct : forall c lam a e, 0 < c -> 0 < lam ->
  (construct (in_new_units c lam a) = Exc e <-> construct a = Exc e)
  /\ ((exists s', construct (in_new_units c lam a) = Ret s') <-> exists s, construct a = Ret s).
Proof.
  intros c lam a e C0 L0. rewrite construct_units by assumption. destruct (construct a) as [s|e'].
  - split; [split; discriminate|]. split; intros _; eexists; reflexivity.
  - split; [reflexivity|]. split; intros [z E]; discriminate.
Qed.
Print Assumptions C98_construct.

Lemma the_object : forall c lam a s s', 0 < c -> 0 < lam -> construct a = Ret s -> construct (in_new_units c lam a) = Ret s' ->
  s' = sub_units c lam s.
Proof. intros c lam a s s' C0 L0 H H'. rewrite construct_units, H in H' by assumption. injection H' as <-. reflexivity. Qed.

(** ** C98 The displacements of given forces *)
Theorem C98_response : forall c lam a s s' F u, 0 < c -> 0 < lam -> construct a = Ret s -> pos_args a ->
  construct (in_new_units c lam a) = Ret s' ->
  elastic_response s' (a_grid a) (times (force_unit c lam a) F) (times lam u) <-> elastic_response s (a_grid a) F u.
Proof.
  intros c lam a s s' F u C0 L0 H PA H'. rewrite (the_object c lam a s s' C0 L0 H H').
  destruct (disp_multiplier a s H) as (P1 & P2 & _).
  assert (EQ : forall fu, (fun x y => - times fu F x y) = times fu (fun x y => - F x y)).
  { intros fu. apply functional_extensionality. intros x. apply functional_extensionality. intros y. unfold times. ring. }
  unfold elastic_response. rewrite EQ. split; intros (U & E & V).
  - destruct (disp_units c lam a s C0 L0 H PA (fun x y => - F x y) 0 0 (conj P1 P2)) as (v & v' & E1 & _).
    exists v. split; [exact E1|]. intros x y G.
    destruct (disp_units c lam a s C0 L0 H PA (fun x y => - F x y) x y G) as (w & w' & E2 & E3 & W).
    rewrite E1 in E2. injection E2 as <-. rewrite E in E3. injection E3 as <-. specialize (V x y G). rewrite W in V. unfold times in V.
    apply (Rmult_eq_reg_l lam); [exact V|lra].
  - destruct (disp_units c lam a s C0 L0 H PA (fun x y => - F x y) 0 0 (conj P1 P2)) as (v & v' & _ & E1 & _).
    exists v'. split; [exact E1|]. intros x y G.
    destruct (disp_units c lam a s C0 L0 H PA (fun x y => - F x y) x y G) as (w & w' & E2 & E3 & W).
    rewrite E1 in E3. injection E3 as <-. rewrite E in E2. injection E2 as <-. rewrite W. unfold times. rewrite (V x y G). reflexivity.
Qed.
Print Assumptions C98_response.

Lemma gap_units : forall lam h delta u x y, gap (times lam h) (lam * delta) (times lam u) x y = lam * gap h delta u x y.
Proof. intros. unfold gap, times. ring. Qed.
Lemma pos_l : forall k x, 0 < k -> 0 <= k * x <-> 0 <= x.
Proof. intros k x K. split; intros X; [|nra]. destruct (Rle_lt_dec 0 x); [assumption|]. nra. Qed.
Lemma neg_l : forall k x, 0 < k -> k * x <= 0 <-> x <= 0.
Proof. intros k x K. split; intros X; [|nra]. destruct (Rle_lt_dec x 0); [assumption|]. nra. Qed.

(** ** C98 The states of contact, without and with a hardness *)
Theorem C98_contact : forall c lam a s s' h delta F u, 0 < c -> 0 < lam -> construct a = Ret s -> pos_args a ->
  construct (in_new_units c lam a) = Ret s' ->
  touching s' (a_grid a) (times lam h) (lam * delta) (times (force_unit c lam a) F) (times lam u)
  <-> touching s (a_grid a) h delta F u.
Proof.
  intros c lam a s s' h delta F u C0 L0 H PA H'. pose proof (unit_pos c lam a C0 L0) as FU. unfold touching.
  rewrite (C98_response c lam a s s' F u C0 L0 H PA H').
  split; intros [RS V]; (split; [exact RS|]); intros x y G; destruct (V x y G) as (V1 & V2 & V3); rewrite gap_units in *; unfold times in *;
    (split; [|split]).
  - apply (pos_l (force_unit c lam a)); assumption.
  - apply (pos_l lam); assumption.
  - apply (Rmult_eq_reg_l (force_unit c lam a * lam)); [nra|]. apply Rgt_not_eq, Rmult_lt_0_compat; assumption.
  - apply pos_l; assumption.
  - apply pos_l; assumption.
  - transitivity (force_unit c lam a * lam * (F x y * gap h delta u x y)); [ring|]. rewrite V3. ring.
Qed.
Print Assumptions C98_contact.

Theorem C98_yielding : forall c lam a s s' hard h delta F u, 0 < c -> 0 < lam -> construct a = Ret s -> pos_args a ->
  construct (in_new_units c lam a) = Ret s' ->
  touching_yielding s' (a_grid a) (force_unit c lam a * hard) (times lam h) (lam * delta) (times (force_unit c lam a) F) (times lam u)
  <-> touching_yielding s (a_grid a) hard h delta F u.
Proof.
  intros c lam a s s' hard h delta F u C0 L0 H PA H'. pose proof (unit_pos c lam a C0 L0) as FU. unfold touching_yielding.
  rewrite (C98_response c lam a s s' F u C0 L0 H PA H').
  split; intros [RS V]; (split; [exact RS|]); intros x y G; destruct (V x y G) as ([V0 V1] & V2 & V3); rewrite gap_units in *; unfold times in *;
    (split; [split|split]).
  - apply (pos_l (force_unit c lam a)); assumption.
  - apply (Rmult_le_reg_l (force_unit c lam a)); assumption.
  - intros X. apply (pos_l lam); [assumption|]. apply V2. apply Rmult_lt_compat_l; assumption.
  - intros X. apply (neg_l lam); [assumption|]. apply V3. apply Rmult_lt_0_compat; assumption.
  - apply pos_l; assumption.
  - apply Rmult_le_compat_l; lra.
  - intros X. apply pos_l; [assumption|]. apply V2. apply (Rmult_lt_reg_l (force_unit c lam a)); assumption.
  - intros X. apply neg_l; [assumption|]. apply V3. apply (Rmult_lt_reg_l (force_unit c lam a)); lra.
Qed.
Print Assumptions C98_yielding.

(** ** C98 The energy *)
Theorem C98_energy : forall c lam a s s' u E, 0 < c -> 0 < lam -> construct a = Ret s -> pos_args a ->
  construct (in_new_units c lam a) = Ret s' ->
  reported_energy s (a_grid a) u E -> reported_energy s' (a_grid a) (times lam u) (lam * force_unit c lam a * E).
Proof.
  intros c lam a s s' u E C0 L0 H PA H' [f RE]. pose proof H' as HH. rewrite (the_object c lam a s s' C0 L0 H H') in *. clear s' H'.
  destruct (evaluate_energy a s u H) as (f1 & E1 & E2 & _). rewrite RE in E1. injection E1 as -> ->.
  destruct (evaluate_energy (in_new_units c lam a) (sub_units c lam s) (times lam u) HH) as (f2 & E3 & E4 & _).
  exists (Some f2). change (a_grid (in_new_units c lam a)) with (a_grid a) in E3, E4. rewrite E3.
  enough (X : inner (a_grid a) (times lam u) (fun x y => - a_val f2 x y)
    = lam * force_unit c lam a * inner (a_grid a) u (fun x y => - a_val f1 x y)) by (rewrite X; do 3 f_equal; ring).
  unfold inner, total. rewrite <- Rsum2_scal. apply Rsum2_ext. intros x y Hx Hy.
  destruct (force_units c lam a s C0 L0 H PA u x y (conj Hx Hy)) as (v & v' & E5 & E6 & W).
  rewrite E2 in E5. injection E5 as <-. rewrite E4 in E6. injection E6 as <-. rewrite W. unfold times. ring.
Qed.
Print Assumptions C98_energy.

(** ** C98 The solver: the same iterations, the same error, the result in the new units *)
Lemma units_respond_disp : forall c lam a s f p, 0 < c -> 0 < lam -> construct a = Ret s -> pos_args a ->
  respond (a_grid a) (evaluate_disp (sub_units c lam s)) f p
  = lam * respond (a_grid a) (evaluate_disp s) (fun q => f q / force_unit c lam a) p.
Proof.
  intros c lam a s f p C0 L0 H PA. pose proof (unit_pos c lam a C0 L0) as FU. unfold respond.
  destruct (disp_units c lam a s C0 L0 H PA (write (a_grid a) 0 (fun q => f q / force_unit c lam a)) (px p) (py p) (pt_inside (a_grid a) p))
    as (u & u' & E1 & E2 & W).
  rewrite E1.
  replace (times (force_unit c lam a) (write (a_grid a) 0 (fun q => f q / force_unit c lam a))) with (write (a_grid a) 0 f) in E2.
  - rewrite E2. exact W.
  - apply functional_extensionality. intros x. apply functional_extensionality. intros y. unfold times, write.
    destruct (bool_dec _ _); [field; lra|ring].
Qed.
Lemma units_respond_force : forall c lam a s f p, 0 < c -> 0 < lam -> construct a = Ret s -> pos_args a ->
  respond (a_grid a) (evaluate_force (sub_units c lam s)) f p
  = force_unit c lam a * respond (a_grid a) (evaluate_force s) (fun q => f q / lam) p.
Proof.
  intros c lam a s f p C0 L0 H PA. unfold respond.
  destruct (force_units c lam a s C0 L0 H PA (write (a_grid a) 0 (fun q => f q / lam)) (px p) (py p) (pt_inside (a_grid a) p))
    as (u & u' & E1 & E2 & W).
  rewrite E1.
  replace (times lam (write (a_grid a) 0 (fun q => f q / lam))) with (write (a_grid a) 0 f) in E2.
  - rewrite E2. exact W.
  - apply functional_extensionality. intros x. apply functional_extensionality. intros y. unfold times, write.
    destruct (bool_dec _ _); [field; lra|ring].
Qed.

Lemma cfg_units : forall c lam fu d o (sb : substrate) sz gr ar ev' fo' en' ck sf hard ext off pentol,
  let sb' := mkSubstrate (sb_grid sb) sz (sb_sub sb) gr ar ev' fo' en' ck in
  (forall (f : pt (sb_sub sb) -> R) p, respond (sb_sub sb) ev' f p = lam * respond (sb_sub sb) (sb_disp sb) (fun q => f q / fu) p) ->
  (forall (f : pt (sb_sub sb) -> R) p, respond (sb_sub sb) fo' f p = fu * respond (sb_sub sb) (sb_force sb) (fun q => f q / lam) p) ->
  solver_cfg (options_in_units lam fu o) sb' (surface_in_units c lam d sf)
    (option_map (Rmult fu) hard) (option_map (Rmult fu) ext) (lam * off) (lam * pentol)
  = CCG_Invariance.in_units lam fu (solver_cfg o sb sf hard ext off pentol).
Proof.
  intros c lam fu d o sb sz gr ar ev' fo' en' ck sf hard ext off pentol sb' RD RF.
  unfold solver_cfg, CCG_Invariance.in_units. cbn. unfold comp_shape. cbn.
  f_equal.
  - apply functional_extensionality. intros p. unfold read, times. ring.
  - apply functional_extensionality. intros f. apply functional_extensionality. intros p. exact (RD f p).
  - apply functional_extensionality. intros f. apply functional_extensionality. intros p. exact (RF f p).
  - destruct hard; reflexivity.
Qed.

Theorem C98_run : forall c lam o a s s' sf hard ext off pentol n, 0 < c -> 0 < lam -> construct a = Ret s -> pos_args a ->
  construct (in_new_units c lam a) = Ret s' ->
  let fu := force_unit c lam a in
  let run' := CCG_Spec.ccg (solver_cfg (options_in_units lam fu o) (periodic s') (surface_in_units c lam (List.length (a_grid a)) sf)
    (option_map (Rmult fu) hard) (option_map (Rmult fu) ext) (lam * off) (lam * pentol)) n in
  match CCG_Spec.ccg (solver_cfg o (periodic s) sf hard ext off pentol) n with
  | CCG_Model.Raise e => run' = CCG_Model.Raise e
  | CCG_Model.Ok r => exists r', run' = CCG_Model.Ok r'
      /\ CCG_Model.x_success r' = CCG_Model.x_success r /\ CCG_Model.x_message r' = CCG_Model.x_message r
      /\ CCG_Model.x_nit r' = CCG_Model.x_nit r /\ CCG_Model.x_nfev r' = CCG_Model.x_nfev r
      /\ CCG_Model.x_fun r' = lam * fu * CCG_Model.x_fun r
      /\ let q := result_object (periodic s) r in let q' := result_object (periodic s') r' in
         o_offset q' = lam * o_offset q
         /\ a_shape (o_x q') = a_shape (o_x q) /\ a_shape (o_jac q') = a_shape (o_jac q)
         /\ forall x y, a_val (o_x q') x y = lam * a_val (o_x q) x y
              /\ a_val (o_jac q') x y = fu * a_val (o_jac q) x y /\ o_plastic q' x y = o_plastic q x y
  end.
Proof.
  intros c lam o a s s' sf hard ext off pentol n C0 L0 H PA H' fu run'. subst run'.
  rewrite (the_object c lam a s s' C0 L0 H H'). clear s' H'.
  assert (RD : forall g, g = a_grid a -> forall (f : pt g -> R) p, respond g (evaluate_disp (sub_units c lam s)) f p
    = lam * respond g (evaluate_disp s) (fun q => f q / fu) p).
  { intros g -> f p. apply units_respond_disp; assumption. }
  assert (RF : forall g, g = a_grid a -> forall (f : pt g -> R) p, respond g (evaluate_force (sub_units c lam s)) f p
    = fu * respond g (evaluate_force s) (fun q => f q / lam) p).
  { intros g -> f p. apply units_respond_force; assumption. }
  specialize (RD _ (hs_grid a s H)). specialize (RF _ (hs_grid a s H)).
  set (sb' := mkSubstrate (sb_grid (periodic s)) (h_sizes (s_hs (sub_units c lam s))) (sb_sub (periodic s)) (h_grid (s_hs s))
    (area_per_pt (s_hs (sub_units c lam s))) (evaluate_disp (sub_units c lam s)) (evaluate_force (sub_units c lam s))
    (evaluate (sub_units c lam s)) (fun _ => Ret tt)).
  change (periodic (sub_units c lam s)) with sb'.
  pose proof (cfg_units c lam fu (List.length (a_grid a)) o (periodic s) (h_sizes (s_hs (sub_units c lam s))) (h_grid (s_hs s))
    (area_per_pt (s_hs (sub_units c lam s))) (evaluate_disp (sub_units c lam s)) (evaluate_force (sub_units c lam s))
    (evaluate (sub_units c lam s)) (fun _ => Ret tt) sf hard ext off pentol RD RF) as EC.
  cbv zeta in EC. fold sb' in EC.
  assert (LI : CCG_Spec.linear (CCG_Model.c_disp (solver_cfg o (periodic s) sf hard ext off pentol))).
  { assert (X : forall g, g = a_grid a -> CCG_Spec.linear (respond g (evaluate_disp s)))
      by (intros g ->; exact (respond_linear _ _ _ _ (disp_multiplier a s H))).
    exact (X _ (hs_grid a s H)). }
  pose proof (Prop_Solver.C13_units _ _ n lam fu L0 (unit_pos c lam a C0 L0) LI) as RUN.
  rewrite <- EC in RUN. change (sb_sub (periodic s)) with (sb_sub sb') in RUN at 1.
  destruct (CCG_Spec.ccg (solver_cfg o (periodic s) sf hard ext off pentol) n) as [r|e]; [|exact RUN].
  exists (CCG_Invariance.result_in_units lam fu r). split; [exact RUN|].
  do 5 (split; [reflexivity|]). cbv zeta. do 3 (split; [reflexivity|]).
  intros x y. cbn [result_object o_x o_jac o_plastic a_val]. unfold write, CCG_Invariance.result_in_units. cbn.
  destruct (bool_dec _ _); (split; [cbn; ring|]); (split; [cbn; ring|]); destruct (CCG_Model.x_plastic r); cbn; try reflexivity.
Qed.
Print Assumptions C98_run.

(** ** Cases *)
(** A line in units of a tenth of the length and a thousandth of the pressure: its
    executed run with a hardness; the contact of a layer at any offset. *)
Example C98_nonvacuous :
  (exists s s' r', construct line = Ret s /\ pos_args line /\ construct (in_new_units 1000 10 line) = Ret s'
     /\ CCG_Spec.ccg (solver_cfg (options_in_units 10 10000 loose) (periodic s') (surface_in_units 1000 10 1 Prop_SubstratePlastic.soft_rows)
          (Some 15000) None 0 1) 20 = CCG_Model.Ok r'
     /\ CCG_Model.x_success r' = true
     /\ a_val (o_jac (result_object (periodic s') r')) 0%nat 0%nat = 15000 /\ a_val (o_jac (result_object (periodic s') r')) 1%nat 0%nat = 7500)
  /\ exists s s' F u, construct hsD = Ret s /\ pos_args hsD /\ construct (in_new_units 1000 (1 / 10) hsD) = Ret s'
     /\ touching s' (a_grid hsD) (fun x y => 1 / 10 * INR (x * y)) (1 / 10 * 1) (times 10 F) (times (1 / 10) u)
     /\ touching s (a_grid hsD) (fun x y => INR (x * y)) 1 F u.
Proof.
  split.
  - destruct line_ok as [s H]. destruct (Prop_SubstratePlastic.soft_run s H) as (r & R1 & SU & _ & _ & J).
    pose proof (units_construct 1000 10 line s ltac:(lra) ltac:(lra) H) as H'.
    pose proof (C98_run 1000 10 loose line s _ Prop_SubstratePlastic.soft_rows (Some (3 / 2)) None 0 (1 / 10) 20
      ltac:(lra) ltac:(lra) H line_pos H') as RUN. cbv zeta in RUN. rewrite R1 in RUN.
    destruct RUN as (r' & E & SU' & _ & _ & _ & _ & _ & _ & _ & V).
    exists s, (sub_units 1000 10 s), r'. split; [exact H|]. split; [exact line_pos|]. split; [exact H'|].
    assert (FU : force_unit 1000 10 line = 10000) by (unfold force_unit; cbn; lra).
    rewrite FU in *. cbn [option_map] in E. replace (10000 * (3 / 2)) with 15000 in E by lra.
    replace (10 * 0) with 0 in E by lra. replace (10 * (1 / 10)) with 1 in E by lra.
    split; [exact E|]. split; [rewrite SU'; exact SU|].
    assert (JV : forall x (G : on_grid (a_grid line) x 0%nat), a_val (o_jac (result_object (periodic s) r)) x 0%nat
      = if Nat.eqb x 0 then 3 / 2 else 3 / 4).
    { intros x G. cbn [result_object o_jac a_val]. change (sb_sub (periodic s)) with (h_grid (s_hs s)).
      assert (G2 : (x < gx (h_grid (s_hs s)))%nat /\ (0 < gy (h_grid (s_hs s)))%nat) by (rewrite (hs_grid line s H); exact G).
      rewrite (write_in _ _ _ _ _ _ G2). exact (J _). }
    destruct (V 0%nat 0%nat) as (_ & V0 & _). destruct (V 1%nat 0%nat) as (_ & V1 & _). rewrite V0, V1, !JV by (split; cbn; lia). cbn. lra.
  - destruct hsD_ok as [s H].
    destruct (Prop_SubstrateContact.C93_one_state hsD s (fun x y => INR (x * y)) 1 H hsD_pos ltac:(discriminate)) as (F & u & T & _).
    pose proof (units_construct 1000 (1 / 10) hsD s ltac:(lra) ltac:(lra) H) as H'.
    exists s, (sub_units 1000 (1 / 10) s), F, u. split; [exact H|]. split; [exact hsD_pos|]. split; [exact H'|]. split; [|exact T].
    pose proof (proj2 (C98_contact 1000 (1 / 10) hsD s _ (fun x y => INR (x * y)) 1 F u ltac:(lra) ltac:(lra) H hsD_pos H') T) as T'.
    replace (force_unit 1000 (1 / 10) hsD) with 10 in T' by (unfold force_unit; cbn; lra). exact T'.
Qed.
