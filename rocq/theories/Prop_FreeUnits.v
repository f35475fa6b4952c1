(** * C100 Free and semi-periodic half-spaces do not depend on the units of length and pressure *)
From Coq Require Import Reals ZArith Lia Lra List Arith Bool FunctionalExtensionality.
From Coquelicot Require Import Complex.
From Verif Require Import Py FFT_Base HalfSpace_Spec HalfSpace_Model HalfSpace_Proofs HalfSpace_Results HalfSpace_Results2
  Free_Model Free_Spec Free_Proofs Free_Results Systems_Model Systems_Spec Systems_Proofs Contact_Model Contact_Proofs
  Free_Energy Prop_Free Prop_FreeEnergy Units_Spec Units_Proofs FreeUnits_Spec FreeUnits_Proofs.
From Verif Require Prop_Units Prop_Solver CCG_Model CCG_Real CCG_Spec CCG_Invariance.
From Coq Require Import List.
Import ListNotations.
Local Open Scope R_scope.

(** ** C100 The constructors: the same errors, an object in the same cases *)
Theorem C100_construct : forall c lam a b e, 0 < c -> 0 < lam ->
  (free_construct (free_in_units c lam a) = Exc e <-> free_construct a = Exc e)
  /\ (semi_construct (semi_in_units c lam b) = Exc e <-> semi_construct b = Exc e).
Proof.
  intros c lam a b e C0 L0. rewrite free_units, semi_units by assumption.
  destruct (free_construct a), (semi_construct b); cbn; split; try reflexivity; split; try discriminate; intros H; exact H.
Qed.
Print Assumptions C100_construct.

Lemma the_space : forall c lam sb s sb' s', 0 < c -> 0 < lam -> same_space c lam sb s sb' s' ->
  s' = fsub_units c lam s /\ List.length (h_sizes (f_hs s)) = 2%nat
  /\ ((sb = free s /\ sb' = free s') \/ (sb = semi s /\ sb' = semi s')).
Proof.
  intros c lam sb s sb' s' C0 L0 [(a & H & H' & E & E')|(a & H & H' & E & E')].
  - rewrite free_units, H in H' by assumption. injection H' as <-. split; [reflexivity|]. split; [|left; split; assumption].
    destruct (free_inv a s H) as (L & _). unfold free_construct in H. destruct (new_on _ _) as [h|] eqn:N; [|discriminate].
    cbn [bind] in H. destruct (Nat.eqb (dim h) 1); [discriminate|]. injection H as <-. cbn [f_hs]. rewrite (new_sizes _ _ _ N). exact L.
  - rewrite semi_units, H in H' by assumption. injection H' as <-. split; [reflexivity|]. split; [|right; split; assumption].
    destruct (semi_inv a s H) as (L & _). unfold semi_construct in H. destruct (fa_grid (sa_base a)) as [|n0 [|n1 r]] eqn:G; try discriminate.
    destruct (new_on _ _) as [h|] eqn:N; [|discriminate].
    cbn [bind] in H. injection H as <-. cbn [f_hs]. rewrite (new_sizes _ _ _ N), G. exact L.
Qed.

(** ** C100 Displacements, forces, energies and the check of the rim, for arrays of any shape *)
Theorem C100_disp : forall c lam sb s sb' s' f, 0 < c -> 0 < lam -> same_space c lam sb s sb' s' ->
  sb_disp sb' (scaled (c * lam ^ 2) f) = outcome (scaled lam) (sb_disp sb f).
Proof.
  intros c lam sb s sb' s' f C0 L0 H. destruct (the_space _ _ _ _ _ _ C0 L0 H) as (-> & SZ & HH).
  replace (c * lam ^ 2) with (c * (lam * lam)) by ring.
  destruct HH as [[-> ->]|[-> ->]]; cbn [free semi sb_disp]; apply free_disp_units; assumption.
Qed.
Print Assumptions C100_disp.
Theorem C100_force : forall c lam sb s sb' s' u, 0 < c -> 0 < lam -> same_space c lam sb s sb' s' ->
  sb_force sb' (scaled lam u) = outcome (scaled (c * lam ^ 2)) (sb_force sb u).
Proof.
  intros c lam sb s sb' s' f C0 L0 H. destruct (the_space _ _ _ _ _ _ C0 L0 H) as (-> & SZ & HH).
  replace (c * lam ^ 2) with (c * (lam * lam)) by ring.
  destruct HH as [[-> ->]|[-> ->]]; cbn [free semi sb_force]; [apply base_force_units|apply semi_force_units]; assumption.
Qed.
Print Assumptions C100_force.
Theorem C100_energy : forall c lam sb s sb' s' u pot forces, 0 < c -> 0 < lam -> same_space c lam sb s sb' s' ->
  sb_eval sb' (scaled lam u) pot forces
  = outcome (fun r => (option_map (Rmult (c * lam ^ 3)) (fst r), option_map (scaled (c * lam ^ 2)) (snd r))) (sb_eval sb u pot forces).
Proof.
  intros c lam sb s sb' s' f pot forces C0 L0 H. destruct (the_space _ _ _ _ _ _ C0 L0 H) as (-> & SZ & HH).
  replace (c * lam ^ 2) with (c * (lam * lam)) by ring.
  destruct HH as [[-> ->]|[-> ->]]; cbn [free semi sb_eval]; apply f_evaluate_units; try assumption; intros v; [apply base_force_units|apply semi_force_units]; assumption.
Qed.
Print Assumptions C100_energy.
Theorem C100_check : forall c lam sb s sb' s' f, 0 < c -> 0 < lam -> same_space c lam sb s sb' s' ->
  sb_check sb' (scaled (c * lam ^ 2) f) = sb_check sb f.
Proof.
  intros c lam sb s sb' s' f C0 L0 H. destruct (the_space _ _ _ _ _ _ C0 L0 H) as (-> & SZ & HH).
  replace (c * lam ^ 2) with (c * (lam * lam)) by ring.
  destruct HH as [[-> ->]|[-> ->]]; cbn [free semi sb_check]; apply check_units; assumption.
Qed.
Print Assumptions C100_check.

(** ** C100 A larger or smaller free half-space made from one, and the influence function shown to the user *)
Theorem C100_child : forall c lam sb s sb' s' g, 0 < c -> 0 < lam -> same_space c lam sb s sb' s' ->
  match spawn_child s g with
  | Exc e => spawn_child s' g = Exc e
  | Ret k => exists k', spawn_child s' g = Ret k' /\ same_space c lam (free k) k (free k') k'
  end
  /\ forall per i j, get_G_real s' per i j = lam / c * get_G_real s per i j.
Proof.
  intros c lam sb s sb' s' g C0 L0 H. destruct (the_space _ _ _ _ _ _ C0 L0 H) as (-> & SZ & _). split; [|reflexivity].
  unfold spawn_child. change (dim (f_hs (fsub_units c lam s))) with (dim (f_hs s)). destruct (Nat.ltb _ _); [reflexivity|].
  cbn [fsub_units f_hs]. rewrite child_sizes_units by assumption. cbn [hs_units h_young].
  set (a := mkFargs g (h_young (f_hs s)) (child_sizes (f_hs s) g) None false).
  change (mkFargs g (c * h_young (f_hs s)) (map (Rmult lam) (child_sizes (f_hs s) g)) None false) with (free_in_units c lam a).
  pose proof (free_units c lam C0 L0 a) as E. destruct (free_construct a) as [k|e] eqn:K; [|exact E].
  exists (fsub_units c lam k). split; [exact E|]. left. exists a. split; [exact K|]. split; [exact E|]. split; reflexivity.
Qed.
Print Assumptions C100_child.

(** ** C100 The solver: the same iterations, the same error, the result in the new units *)
Lemma scaled_write : forall g k f, scaled k (mkArr g (write g 0 (fun q => f q / k))) = mkArr g (write g 0 (fun q => k * (f q / k))).
Proof.
  intros. unfold scaled. cbn. f_equal. apply functional_extensionality. intros x. apply functional_extensionality. intros y. unfold write.
  destruct (bool_dec _ _); ring.
Qed.
Lemma respond_scaled : forall g ev ev' j k f p, k <> 0 -> (forall u, ev' (scaled k u) = outcome (scaled j) (ev u)) ->
  respond g ev' f p = j * respond g ev (fun q => f q / k) p.
Proof.
  intros g ev ev' j k f p K E. unfold respond.
  replace (write g 0 f) with (write g 0 (fun q => k * (f q / k))).
  2:{ f_equal. apply functional_extensionality. intros q. field. exact K. }
  rewrite <- scaled_write, E. destruct (ev _); cbn; unfold read; cbn; ring.
Qed.
Theorem C100_run : forall c lam o sb s sb' s' sf hard ext off pentol n, 0 < c -> 0 < lam -> padded_space sb s -> same_space c lam sb s sb' s' ->
  let fu := c * lam ^ 2 in
  let run' := CCG_Spec.ccg (solver_cfg (options_in_units lam fu o) sb' (surface_in_units c lam 2 sf)
    (option_map (Rmult fu) hard) (option_map (Rmult fu) ext) (lam * off) (lam * pentol)) n in
  match CCG_Spec.ccg (solver_cfg o sb sf hard ext off pentol) n with
  | CCG_Model.Raise e => run' = CCG_Model.Raise e
  | CCG_Model.Ok r => exists r', run' = CCG_Model.Ok r'
      /\ CCG_Model.x_success r' = CCG_Model.x_success r /\ CCG_Model.x_message r' = CCG_Model.x_message r
      /\ CCG_Model.x_nit r' = CCG_Model.x_nit r /\ CCG_Model.x_nfev r' = CCG_Model.x_nfev r
      /\ CCG_Model.x_fun r' = lam * fu * CCG_Model.x_fun r
      /\ let q := result_object sb r in let q' := result_object sb' r' in
         o_offset q' = lam * o_offset q
         /\ a_shape (o_x q') = a_shape (o_x q) /\ a_shape (o_jac q') = a_shape (o_jac q)
         /\ forall x y, a_val (o_x q') x y = lam * a_val (o_x q) x y
              /\ a_val (o_jac q') x y = fu * a_val (o_jac q) x y /\ o_plastic q' x y = o_plastic q x y
  end.
Proof.
  intros c lam o sb s sb' s' sf hard ext off pentol n C0 L0 PS SS fu run'. subst run'.
  assert (FU : 0 < fu) by (apply Rmult_lt_0_compat; [exact C0|apply pow_lt; exact L0]).
  assert (LI : CCG_Spec.linear (CCG_Model.c_disp (solver_cfg o sb sf hard ext off pentol))).
  { destruct (padded_facts sb s PS) as (LD & P1 & P2 & GF & S2 & EV & SB & AR & FO & DI & _).
    cbn [solver_cfg CCG_Model.c_disp].
    assert (X : forall g, g = f_dom s -> CCG_Spec.linear (respond g (sb_disp sb))).
    { intros g ->. destruct (respond_linear _ _ _ _ (base_disp_multiplier s P1 P2 GF EV)) as [X1 X2].
      assert (R : forall f, respond (f_dom s) (sb_disp sb) f = respond (f_dom s) (base_disp s) f) by (intros f; unfold respond; rewrite DI; reflexivity).
      split; intros; rewrite !R; [apply X1|apply X2]. }
    exact (X _ SB). }
  pose proof (fun u => C100_disp c lam sb s sb' s' u C0 L0 SS) as ED. pose proof (fun u => C100_force c lam sb s sb' s' u C0 L0 SS) as EF.
  assert (SB' : sb_sub sb' = sb_sub sb /\ sb_grid sb' = sb_grid sb).
  { destruct (the_space _ _ _ _ _ _ C0 L0 SS) as (-> & _ & [[-> ->]|[-> ->]]); split; reflexivity. }
  clear PS SS. destruct SB' as [E1 E2]. destruct sb' as [gr' sz' su' to' ar' ev' fo' en' ck']. cbn [sb_sub sb_grid sb_disp sb_force] in *. subst su' gr'.
  pose proof (Prop_Units.cfg_units c lam fu 2 o sb sz' to' ar' ev' fo' en' ck' sf hard ext off pentol
    (fun f p => respond_scaled _ _ _ lam fu f p ltac:(lra) ED) (fun f p => respond_scaled _ _ _ fu lam f p ltac:(lra) EF)) as EC.
  cbv zeta in EC. set (sb' := mkSubstrate (sb_grid sb) sz' (sb_sub sb) to' ar' ev' fo' en' ck') in *.
  pose proof (Prop_Solver.C13_units _ _ n lam fu L0 FU LI) as RUN.
  rewrite <- EC in RUN. change (sb_sub sb) with (sb_sub sb') in RUN at 1.
  destruct (CCG_Spec.ccg (solver_cfg o sb sf hard ext off pentol) n) as [r|e]; [|exact RUN].
  exists (CCG_Invariance.result_in_units lam fu r). split; [exact RUN|].
  do 5 (split; [reflexivity|]). cbv zeta. do 3 (split; [reflexivity|]).
  intros x y. cbn [result_object o_x o_jac o_plastic a_val]. unfold write, CCG_Invariance.result_in_units. cbn.
  destruct (bool_dec _ _); (split; [cbn; ring|]); (split; [cbn; ring|]); destruct (CCG_Model.x_plastic r); cbn; try reflexivity.
Qed.
Print Assumptions C100_run.

(** ** Cases *)
(** 3 x 2 points in units of a tenth of the length and a thousandth of the pressure. *)
Example C100_nonvacuous :
  (exists s s', padded_space (free s) s /\ same_space 1000 10 (free s) s (free s') s' /\ sb_sub (free s) = [6; 4]%nat)
  /\ (exists s s', padded_space (semi s) s /\ same_space 1000 10 (semi s) s (semi s') s' /\ sb_sub (semi s) = [3; 3]%nat)
  /\ exists s s' k, same_space 1000 10 (free s) s (free s') s' /\ spawn_child s [5; 7]%nat = Ret k.
Proof.
  assert (SO : sizes_ok fhA) by (unfold sizes_ok, cell_size; cbn; lra).
  assert (X : exists s, free_construct fhA = Ret s /\ padded_space (free s) s /\ same_space 1000 10 (free s) s (free (fsub_units 1000 10 s)) (fsub_units 1000 10 s)).
  { destruct fh_ok as [[s H] _]. exists s. split; [exact H|]. split; [left; exists fhA; split; [exact H|]; split; [exact SO|reflexivity]|].
    left. exists fhA. rewrite free_units by lra. rewrite H. repeat split. }
  split; [|split].
  - destruct X as (s & H & P & Q). exists s, (fsub_units 1000 10 s). split; [exact P|]. split; [exact Q|].
    destruct (free_inv _ _ H) as (_ & _ & D & _). cbn [free sb_sub]. rewrite D. reflexivity.
  - destruct sh_ok as [[s H] _]. exists s, (fsub_units 1000 10 s). split; [right; exists shA; split; [exact H|]; split; [exact SO|reflexivity]|].
    split; [right; exists shA; rewrite semi_units by lra; rewrite H; repeat split|].
    destruct (semi_inv _ _ H) as (_ & _ & D & _). cbn [semi sb_sub]. rewrite D. reflexivity.
  - destruct X as (s & H & P & Q).
    assert (K : exists k, spawn_child s [5; 7]%nat = Ret k).
    { destruct (free_inv _ _ H) as (L & G & _). destruct G as [GG _ _ _ _ _ _ _]. unfold spawn_child, dim. rewrite GG. cbn [fhA fa_grid List.length Nat.ltb Nat.leb].
      apply (free_ok _ 5 7); [reflexivity|lia|lia| |discriminate]. cbn [fa_sizes]. unfold child_sizes. rewrite GG.
      destruct (the_space 1000 10 _ _ _ _ ltac:(lra) ltac:(lra) Q) as (_ & SZ & _). destruct (h_sizes (f_hs s)); discriminate. }
    destruct K as [k K]. exists s, (fsub_units 1000 10 s), k. split; assumption.
Qed.
