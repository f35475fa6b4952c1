(** * A solver run on a periodic line of two points, executed with rational numbers *)
From Coq Require Import Reals Lia Lra List Arith Bool QArith Qreals FunctionalExtensionality.
From Coquelicot Require Import Complex.
From Verif Require Import Py FFT_Base HalfSpace_Spec HalfSpace_Model HalfSpace_Proofs HalfSpace_Results HalfSpace_Results2 HalfSpace_Witness
  Systems_Model Systems_Spec Systems_Proofs Pipeline_Model Contact_Model Contact_Proofs Contact_Results.
From Verif Require CCG_Model CCG_Real CCG_Spec CCG_Hom CCG_Q CCG_Witness.
From Coq Require Import List.
Import ListNotations.
Local Open Scope R_scope.

(** Stiffness 2/3 of the uniform displacement and 2 of the wave; area 1 of a point. *)
Definition line : args := mkArgs [2%nat] (4 / PI) [2] (Some (2 / 3)) None 0 None.
Lemma line_ok : exists s, construct line = Ret s.
Proof.
  apply (construct_1d_ok line 2); try reflexivity; try lia; try discriminate; [right; reflexivity| |cbn; lra].
  cbn. intros [= Z]. lra.
Qed.
Lemma line_pos : pos_args line.
Proof.
  pose proof PI_RGT_0. split; [|split; [|split; [|split]]]; cbn.
  - intros z [<-|[]]. lra.
  - apply Rdiv_lt_0_compat; lra.
  - lra.
  - intros t E. discriminate.
  - intros q [= <-]. lra.
Qed.

Lemma mult_two : forall G f x, Herm 2 1 G -> (forall k l, Cconj (G k l) = G k l) -> (x < 2)%nat ->
  mult 2 1 G f x 0%nat = Re (G 0%nat 0%nat) * ((f 0%nat 0%nat + f 1%nat 0%nat) / 2)
    + (if Nat.eqb x 0 then 1 else -1) * (Re (G 1%nat 0%nat) * ((f 0%nat 0%nat - f 1%nat 0%nat) / 2)).
Proof.
  intros G f x HG HR Hx.
  assert (W0 : forall i, (i < 2)%nat -> wave 2 1 0 0 0 i 0%nat = 1).
  { intros i Hi. unfold wave. rewrite <- cos_0. f_equal. simpl INR. unfold Rdiv. ring. }
  assert (W1 : forall i, (i < 2)%nat -> wave 2 1 1 0 0 i 0%nat = if Nat.eqb i 0 then 1 else -1).
  { intros i Hi. unfold wave. destruct i as [|[|i]]; [| |lia]; cbn [Nat.eqb].
    - rewrite <- cos_0. f_equal. simpl INR. unfold Rdiv. ring.
    - rewrite <- cos_PI. f_equal. simpl INR. field. }
  rewrite (mult_ext 2 1 G f (fun i j => ((f 0%nat 0%nat + f 1%nat 0%nat) / 2) * wave 2 1 0 0 0 i j
    + ((f 0%nat 0%nat - f 1%nat 0%nat) / 2) * wave 2 1 1 0 0 i j)).
  2:{ intros i j Hi Hj. assert (j = 0)%nat by lia. subst j. rewrite W0, W1 by assumption.
      destruct i as [|[|i]]; [| |lia]; cbn [Nat.eqb]; lra. }
  rewrite mult_lin; try assumption; try lia. rewrite !mult_wave; try assumption; try lia; try apply HR.
  rewrite W0, W1 by assumption. ring.
Qed.

Lemma line_gf : forall s, construct line = Ret s -> s_gf s 0%nat 0%nat = 3 / 2 /\ s_gf s 1%nat 0%nat = 1 / 2
  /\ s_ss s 0%nat 0%nat = 2 / 3 /\ s_ss s 1%nat 0%nat = 2 /\ area_per_pt (s_hs s) = 1.
Proof.
  intros s H. pose proof PI_RGT_0 as PP.
  assert (NX : nx (s_hs s) = 2%nat) by (rewrite (nx_gx line s H); reflexivity).
  assert (NY : ny (s_hs s) = 1%nat) by (rewrite (ny_gy line s H); reflexivity).
  pose proof (gf_val line s H line_pos) as GV. pose proof (ss_val line s H line_pos) as SV. rewrite NX, NY in GV, SV.
  rewrite !GV, !SV by lia. clear GV SV NX NY.
  destruct (construct_inv line s H) as [Hn _]. apply new_inv in Hn. destruct Hn as (_ & _ & _ & _ & _ & _ & E).
  assert (Z : zeroed (s_hs s) 0 0 = false /\ zeroed (s_hs s) 1 0 = false).
  { rewrite E. unfold zeroed. cbn. split; [|reflexivity]. destruct (Req_bool_spec (2 / 3) 0) as [K|K]; [lra|reflexivity]. }
  assert (S0 : sigma (s_hs s) 0 0 = 2 / 3).
  { rewrite E. unfold sigma, zero_mode, eff_thick, dim. cbn. destruct (Req_bool_spec (2 / 3) 0) as [K|K]; [lra|reflexivity]. }
  assert (S1 : sigma (s_hs s) 1 0 = 2).
  { rewrite E. unfold sigma, eff_thick, dim, qabs, qcoord, nx, ny, sx, sy. cbn.
    replace (sqrt _) with (1 / 2); [field; lra|]. symmetry.
    replace (_ + _) with (Rsqr (1 / 2)) by (unfold Rsqr, Rdiv; lra). apply sqrt_Rsqr. lra. }
  assert (AR : area_per_pt (s_hs s) = 1).
  { rewrite E. unfold area_per_pt. cbn. field. }
  destruct Z as [-> ->]. rewrite S0, S1, AR. repeat split; field.
Qed.

Definition pair (c d : Q) (p q : pt [2%nat]) : Q := if Nat.eqb (px p) (px q) then c else d.
Lemma line_respond : forall ev c G cd dd, multiplier [2%nat] ev c G ->
  c * ((Re (G 0%nat 0%nat) + Re (G 1%nat 0%nat)) / 2) = - Q2R cd ->
  c * ((Re (G 0%nat 0%nat) - Re (G 1%nat 0%nat)) / 2) = - Q2R dd ->
  forall f, respond [2%nat] ev f = CCG_Q.rmatvec (points [2%nat]) (pair cd dd) f.
Proof.
  intros ev c G cd dd (_ & _ & HG & HR & E) E1 E2 f. apply functional_extensionality. intros p.
  unfold respond. destruct (E (mkArr [2%nat] (write [2%nat] 0 f)) eq_refl) as (u & EU & _ & V). rewrite EU. unfold read.
  pose proof (pt_inside [2%nat] p) as [IX IY]. cbn in IX, IY. rewrite V by (split; assumption).
  replace (py p) with 0%nat by lia. cbn [a_val gx gy nth]. rewrite mult_two by assumption.
  assert (P2 : points [2%nat] = [exist _ (0, 0)%nat eq_refl; exist _ (1, 0)%nat eq_refl]) by reflexivity.
  rewrite P2. unfold CCG_Q.rmatvec. cbn [fold_right].
  change (write [2%nat] 0 f 0%nat 0%nat) with (f (exist _ (0, 0)%nat eq_refl)).
  change (write [2%nat] 0 f 1%nat 0%nat) with (f (exist _ (1, 0)%nat eq_refl)).
  set (f0 := f (exist _ (0, 0)%nat eq_refl)). set (f1 := f (exist _ (1, 0)%nat eq_refl)).
  unfold pair. destruct (px p) as [|[|i]]; [| |lia]; cbn [px proj1_sig fst Nat.eqb].
  - replace (- (Q2R cd * f0) + (- (Q2R dd * f1) + 0)) with ((- Q2R cd) * f0 + (- Q2R dd) * f1) by ring.
    rewrite <- E1, <- E2. field.
  - replace (- (Q2R dd * f0) + (- (Q2R cd * f1) + 0)) with ((- Q2R dd) * f0 + (- Q2R cd) * f1) by ring.
    rewrite <- E1, <- E2. field.
Qed.

(** Heights 1 and 3/4, load 3, tolerances 1/4, 1 and 1. *)
Definition two_rows : surface := mkSurface [2%nat] (fun i _ => if Nat.eqb i 0 then 1 else 3 / 4) (fun _ _ => 0) 0 1.
Definition loose : options := mkOpt 1 1 (1 / 10) (19 / 20) 10 (fun _ _ _ => None).
Definition line_problem : @CCG_Q.qprob (pt [2%nat]) :=
  CCG_Q.mkProb (fun p => inside [2%nat] (px p, py p)) (fun _ => false) (pair 1 (1#2)) (pair (4#3) (-2#3))
    (fun p => if Nat.eqb (px p) 0 then 1%Q else (3#4)%Q) None (Some 3%Q) 0%Q None (1#4)%Q 1%Q 1%Q.
Definition eqp (p q : pt [2%nat]) : bool := Nat.eqb (px p) (px q) && Nat.eqb (py p) (py q).
Lemma eqp_eq : forall p q, eqp p q = true -> p = q.
Proof.
  intros p q E. apply andb_prop in E. destruct E as [E1 E2]. apply Nat.eqb_eq in E1. apply Nat.eqb_eq in E2.
  apply pt_eq; assumption.
Qed.
Definition check_run (r : @CCG_Model.sresult Q (pt [2%nat])) : bool :=
  CCG_Model.x_success r && CCG_Witness.seqb (CCG_Model.x_str r) CCG_Model.Cg && negb (Qeq_bool (CCG_Model.x_tau r) 0)
  && forallb (CCG_Model.x_active r) (points [2%nat]).
Lemma line_exec : exists r, CCG_Spec.ccg (CCG_Q.rcfg_of (points [2%nat]) line_problem) 50 = CCG_Model.Ok (CCG_Hom.map_result Q2R r)
  /\ check_run r = true.
Proof. apply (CCG_Q.exec_check eqp eqp_eq). vm_compute. reflexivity. Qed.

Lemma line_cfg : forall sb, sb_sub sb = [2%nat] -> comp_shape sb = [2%nat] ->
  (forall f, respond [2%nat] (sb_disp sb) f = CCG_Q.rmatvec (points [2%nat]) (pair 1 (1#2)) f) ->
  (forall f, respond [2%nat] (sb_force sb) f = CCG_Q.rmatvec (points [2%nat]) (pair (4#3) (-2#3)) f) ->
  exists r, CCG_Spec.ccg (solver_cfg loose sb two_rows None (Some 3) 0 (1 / 4)) 50 = CCG_Model.Ok r
    /\ CCG_Model.x_success r = true /\ CCG_Model.x_str r = CCG_Model.Cg /\ CCG_Model.x_tau r <> 0
    /\ forall z, CCG_Model.x_active r z = true.
Proof.
  intros [gr sz su tp ar di fo ev ck] S C D F. cbn [sb_sub sb_disp sb_force] in *. subst su.
  set (sb := mkSubstrate gr sz [2%nat] tp ar di fo ev ck) in *.
  assert (E : solver_cfg loose sb two_rows None (Some 3) 0 (1 / 4) = CCG_Q.rcfg_of (points [2%nat]) line_problem).
  { unfold solver_cfg, CCG_Q.rcfg_of. rewrite C. cbn [sb sb_sub sb_disp sb_force line_problem CCG_Q.q_slice CCG_Q.q_masked CCG_Q.q_h
      CCG_Q.q_C CCG_Q.q_S CCG_Q.q_hard CCG_Q.q_ext CCG_Q.q_off CCG_Q.q_f0 CCG_Q.q_pentol CCG_Q.q_forcetol CCG_Q.q_thermotol
      option_map loose op_forcetol op_thermotol op_mixfac op_mixdec op_minmix op_bisect].
    f_equal; try (apply functional_extensionality; exact D); try (apply functional_extensionality; exact F);
      try (f_equal; unfold Q2R; cbn; lra); try (unfold Q2R; cbn; lra).
    apply functional_extensionality. intros p. unfold read, CCG_Hom.lift. cbn [two_rows heights a_val sf_base sf_plastic].
    destruct (Nat.eqb (px p) 0); unfold Q2R; cbn; lra. }
  destruct line_exec as (r & R1 & CK). exists (CCG_Hom.map_result Q2R r). rewrite E. split; [exact R1|].
  unfold check_run in CK. apply andb_prop in CK. destruct CK as [CK C4]. apply andb_prop in CK. destruct CK as [CK C3].
  apply andb_prop in CK. destruct CK as [C1 C2]. cbn [CCG_Hom.map_result CCG_Model.x_success CCG_Model.x_str CCG_Model.x_tau CCG_Model.x_active].
  split; [exact C1|]. split; [apply CCG_Witness.seqb_eq; exact C2|]. split.
  - intros Z. replace 0 with (Q2R 0) in Z by (unfold Q2R; cbn; lra). apply eqR_Qeq in Z. apply Qeq_eq_bool in Z. rewrite Z in C3. discriminate.
  - intros z. rewrite forallb_forall in C4. apply C4. apply points_all.
Qed.
Lemma line_run : forall s, construct line = Ret s ->
  exists r, CCG_Spec.ccg (solver_cfg loose (periodic s) two_rows None (Some 3) 0 (1 / 4)) 50 = CCG_Model.Ok r
    /\ CCG_Model.x_success r = true /\ CCG_Model.x_str r = CCG_Model.Cg /\ CCG_Model.x_tau r <> 0
    /\ forall z, CCG_Model.x_active r z = true.
Proof.
  intros s H. destruct (line_gf s H) as (G0 & G1 & K0 & K1 & AR). apply line_cfg.
  - exact (hs_grid _ _ H).
  - unfold comp_shape. cbn [periodic sb_topo sb_sub sb_grid]. rewrite ?(hs_grid _ _ H). reflexivity.
  - intros f. apply (line_respond _ _ _ _ _ (disp_multiplier line s H)); unfold GF; rewrite !Re_RtoC, G0, G1, AR; unfold Q2R; cbn; lra.
  - intros f. apply (line_respond _ _ _ _ _ (force_multiplier line s H)); unfold SS; rewrite !Re_RtoC, K0, K1, AR; unfold Q2R; cbn; lra.
Qed.
