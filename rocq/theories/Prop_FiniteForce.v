(** * C82 At a given load: once the contact area no longer changes, one iteration per contact point is enough *)
From Coq Require Import Reals Lia Lra List Arith Bool String QArith Qreals FunctionalExtensionality.
From Coquelicot Require Import Complex.
From Verif Require Import Py FFT_Base HalfSpace_Spec HalfSpace_Model HalfSpace_Proofs HalfSpace_Results HalfSpace_Results2 Systems_Model Systems_Spec Systems_Proofs Pipeline_Model Pipeline_Spec Pipeline_More
  Contact_Spec Contact_Model Contact_Proofs Contact_Results Contact_Results2 Contact_Load Signorini_Spec Signorini_Periodic Prop_Signorini Prop_Contact Prop_Finite.
From Verif Require CCG_Model CCG_Real CCG_Spec CCG_Results2 CCG_Hom CCG_Q CCG_Witness CCG_FiniteRun CCG_FiniteForce Prop_Stuck.
From Coq Require Import List.
Import ListNotations.
Local Open Scope R_scope.

(** ** The solver *)
Section Abstract.
  Import CCG_Model CCG_Real CCG_Spec CCG_FiniteRun CCG_FiniteForce.

(** A guess that presses nowhere: the first iteration spreads the load over the
    surface, and the conjugate gradients start from there. *)
Theorem C82_start : forall P (c : @cfg R P) Fx, elastic c -> c_ext c = Some Fx -> 0 < Fx ->
  (forall s0, after c 0 = Ok s0 -> forall p, 0 <= s_f s0 p) ->
  (0 < c_nsurf c)%nat -> List.length (filter (fun p => c_slice c p && negb (c_masked c p)) (grid c)) = c_nsurf c ->
  fresh c 1 Fx /\ exists s, after c 1 = Ok s /\
    forall p, s_f s p = if c_slice c p && negb (c_masked c p) then - Fx / INR (c_nsurf c) else 0.
Proof.
  intros P c Fx El Ext Pos G Hn Hl. split.
  - apply now_fresh; auto.
  - destruct (now_first c El Fx Ext (G _ eq_refl)) as (s & Ha & Hf). exists s. split; auto. intros p. rewrite Hf. reflexivity.
Qed.
Print Assumptions C82_start.

(** While the area is settled the load is carried exactly... *)
Theorem C82_carried : forall P (c : @cfg R P) Fx k m C i s,
  elastic c -> c_ext c = Some Fx -> 0 < Fx -> covers c ->
  fresh c k Fx -> settled c k m C -> (i <= m)%nat -> after c (k + i) = Ok s -> carried c s = Fx.
Proof.
  intros P c Fx k m C i s El Ext Pos Cov Hr Hs. exact (settled_load c El Fx Ext Pos Cov C k m Hr Hs i s).
Qed.
Print Assumptions C82_carried.

(** ... the gaps of different iterates, above their mean over the contact area,
    are orthogonal... *)
Theorem C82_orthogonal : forall P (c : @cfg R P) Fx k m C i j si sj,
  elastic c -> c_ext c = Some Fx -> 0 < Fx -> covers c ->
  linear (c_disp c) -> self_adjoint (grid c) (c_disp c) -> compliant (grid c) (c_disp c) ->
  fresh c k Fx -> settled c k m C -> (i < j)%nat -> (j <= m)%nat ->
  after c (k + i) = Ok si -> after c (k + j) = Ok sj ->
  lsum (filter C (grid c)) (fun p => level_gap c C si p * level_gap c C sj p) = 0.
Proof.
  intros P c Fx k m C i j si sj El Ext Pos Cov Li Sa Co Hr Hs.
  exact (settled_load_orthogonal c El Fx Ext Pos Li Sa Co Cov C k m Hr Hs i j si sj).
Qed.
Print Assumptions C82_orthogonal.

(** ... and the complementary energy, whatever the offset, never grows. *)
Theorem C82_energy : forall P (c : @cfg R P) Fx k m C off i j si sj,
  elastic c -> c_ext c = Some Fx -> 0 < Fx -> covers c ->
  linear (c_disp c) -> self_adjoint (grid c) (c_disp c) -> compliant (grid c) (c_disp c) ->
  fresh c k Fx -> settled c k m C -> (i <= j)%nat -> (j <= m)%nat ->
  after c (k + i) = Ok si -> after c (k + j) = Ok sj ->
  complementary_energy c off (s_f sj) <= complementary_energy c off (s_f si).
Proof.
  intros P c Fx k m C off i j si sj El Ext Pos Cov Li Sa Co Hr Hs.
  exact (settled_load_energy c El Fx Ext Pos Li Sa Co Cov C k m Hr Hs off i j si sj).
Qed.
Print Assumptions C82_energy.

(** One iteration fewer than there are contact points: the contact area is level. *)
Theorem C82_closed : forall P (c : @cfg R P) Fx k C s p,
  elastic c -> c_ext c = Some Fx -> 0 < Fx -> covers c ->
  linear (c_disp c) -> self_adjoint (grid c) (c_disp c) -> compliant (grid c) (c_disp c) ->
  let N := List.length (filter C (grid c)) in
  fresh c k Fx -> settled c k (pred N) C ->
  after c (k + pred N) = Ok s -> C p = true -> level_gap c C s p = 0.
Proof.
  intros P c Fx k C s p El Ext Pos Cov Li Sa Co N Hr Hs.
  exact (settled_load_closed c El Fx Ext Pos Li Sa Co Cov C k (pred N) Hr Hs s p (le_n _)).
Qed.
Print Assumptions C82_closed.

(** The next iterate, with its rigid-body offset, is the exact solution... *)
Theorem C82_exact : forall P (c : @cfg R P) Fx k C s,
  elastic c -> c_ext c = Some Fx -> 0 < Fx -> covers c ->
  linear (c_disp c) -> self_adjoint (grid c) (c_disp c) -> compliant (grid c) (c_disp c) ->
  let N := List.length (filter C (grid c)) in
  fresh c k Fx -> settled c k N C ->
  after c (k + N) = Ok s -> exact_solution c (s_off s) (fun p => - s_f s p) /\ carried c s = Fx.
Proof.
  intros P c Fx k C s El Ext Pos Cov Li Sa Co N Hr Hs Ha. split.
  - exact (settled_load_exact c El Fx Ext Pos Li Sa Co Cov C k N Hr Hs s (le_n _) Ha).
  - exact (settled_load c El Fx Ext Pos Cov C k N Hr Hs N s (le_n _) Ha).
Qed.
Print Assumptions C82_exact.

(** ... and the call returns success by the one after that. *)
Theorem C82_stops : forall P (c : @cfg R P) Fx k C n,
  elastic c -> c_ext c = Some Fx -> 0 < Fx -> covers c -> tolerances_positive c ->
  linear (c_disp c) -> self_adjoint (grid c) (c_disp c) -> compliant (grid c) (c_disp c) ->
  let N := List.length (filter C (grid c)) in
  fresh c k Fx -> settled c k N C -> (k + N < n)%nat ->
  exists r, ccg c n = Ok r /\ x_success r = true /\ (x_nit r <= S (k + N))%nat.
Proof.
  intros P c Fx k C n El Ext Pos Cov Tol Li Sa Co N Hr Hs Hn.
  exact (settled_load_stops c El Fx Ext Pos Li Sa Co Cov C k N Hr Hs n Tol (le_n _) Hn).
Qed.
Print Assumptions C82_stops.
End Abstract.

(** ** The periodic half-space *)
Theorem C82_half_space : forall o n m lx ly sb sf force off pentol k C,
  (2 <= n)%nat -> (2 <= m)%nat -> 0 < lx -> 0 < ly ->
  0 < pentol -> 0 < op_forcetol o -> 0 < op_thermotol o -> 0 < force ->
  make_half_space "periodic" [n; m] [lx; ly] = Ret sb ->
  let c := solver_cfg o sb sf None (Some force) off pentol in
  let N := List.length (filter C (CCG_Spec.grid c)) in
  CCG_FiniteForce.fresh c k force -> CCG_FiniteRun.settled c k N C ->
  (exists s, CCG_Spec.after c (k + N) = CCG_Model.Ok s /\
    in_contact [n; m] lx ly (a_val (heights sf)) (CCG_Model.s_off s)
      (fun x y => write (sb_sub sb) 0 (fun z => - CCG_Model.s_f s z) x y / sb_area sb)
      (write (sb_sub sb) 0 (CCG_Model.s_u s))
    /\ Rsum2 n m (write (sb_sub sb) 0 (fun z => - CCG_Model.s_f s z)) = force)
  /\ forall maxiter, (k + N < maxiter)%nat -> exists r, CCG_Spec.ccg c maxiter = CCG_Model.Ok r
       /\ CCG_Model.x_success r = true /\ (CCG_Model.x_nit r <= S (k + N))%nat.
Proof.
  intros o n m lx ly sb sf force off pentol k C N2 M2 X Y PT FT TT FP HS c N Hr Hs.
  destruct (half_space_cases _ _ _ _ HS) as [(_ & hs & C0 & SB)|(Q & _)]; [|discriminate].
  destruct (half_space_shapes _ _ _ _ HS) as (_ & CS & _ & _).
  assert (GS : sb_sub sb = [n; m]) by (rewrite SB; exact (hs_grid _ _ C0)).
  assert (MU : multiplier (sb_sub sb) (sb_disp sb) (- / area_per_pt (s_hs hs)) (GF hs)).
  { rewrite GS, SB. exact (disp_multiplier _ _ C0). }
  assert (LI : CCG_Spec.linear (CCG_Model.c_disp c)) by exact (respond_linear _ _ _ _ MU).
  assert (SA : CCG_Spec.self_adjoint (CCG_Spec.grid c) (CCG_Model.c_disp c)).
  { unfold c. rewrite cfg_grid. exact (respond_selfadjoint _ _ _ _ MU). }
  assert (CO : CCG_Spec.compliant (CCG_Spec.grid c) (CCG_Model.c_disp c)).
  { unfold c. rewrite cfg_grid. cbn [solver_cfg CCG_Model.c_disp]. rewrite SB. apply (hs_compliant_sub n m lx ly); try assumption.
    rewrite <- GS, SB. reflexivity. }
  assert (COV : CCG_Spec.covers c) by apply cfg_covers.
  assert (IN : forall z : pt (sb_sub sb), (px z < n)%nat /\ (py z < m)%nat).
  { clear - GS. revert GS. generalize (sb_sub sb). intros g' -> z. exact (pt_inside [n; m] z). }
  assert (OS : forall z, CCG_Model.c_slice c z && negb (CCG_Model.c_masked c z) = true).
  { intros z. unfold c, solver_cfg. cbn [CCG_Model.c_slice CCG_Model.c_masked]. rewrite CS.
    rewrite (proj2 (inside_true [n; m] _ _) (IN z)). reflexivity. }
  split.
  - destruct (Hs N (le_n N)) as (s & Ha & _). exists s. split; [exact Ha|].
    destruct (C82_exact _ c force k C s eq_refl eq_refl FP COV LI SA CO Hr Hs Ha) as [EX CA].
    assert (SU : CCG_Model.s_u s = CCG_Model.c_disp c (CCG_Model.s_f s)).
    { destruct (Nat.eq_dec (k + N) 0) as [Z|Z].
      - destruct Hr as (s0 & Ha0 & _ & SU0 & _). replace (k + N)%nat with k in Ha by lia. congruence.
      - apply (CCG_Results2.after_inv c (k + N) s I Ha). lia. }
    split; [exact (exact_contact o n m lx ly sb sf (Some force) off _ pentol s X Y HS EX SU)|].
    rewrite <- CA. unfold CCG_FiniteForce.carried. rewrite CCG_Results2.lsum_filter.
    assert (GC : CCG_Spec.grid c = points (sb_sub sb)) by apply cfg_grid. rewrite GC, sum_points.
    assert (RE : forall a b W, a = n -> b = m -> Rsum2 n m W = Rsum2 a b W) by (intros a b W -> ->; reflexivity).
    rewrite (RE (gx (sb_sub sb)) (gy (sb_sub sb))) by (rewrite GS; reflexivity). apply Rsum2_ext. intros x y Hx Hy.
    rewrite !(write_in _ _ _ _ _ _ (conj Hx Hy)). rewrite OS. reflexivity.
  - intros maxiter HM.
    exact (C82_stops _ c force k C maxiter eq_refl eq_refl FP COV (conj PT (conj FT TT)) LI SA CO Hr Hs HM).
Qed.
Print Assumptions C82_half_space.

(** A surface that starts below the half-space is such a fresh start. *)
Theorem C82_half_space_start : forall o n m lx ly sb sf force off pentol,
  (2 <= n)%nat -> (2 <= m)%nat -> 0 < lx -> 0 < ly -> 0 < force -> sf_grid sf = [n; m] ->
  (forall i j, (i < n)%nat -> (j < m)%nat -> a_val (heights sf) i j + off <= 0) ->
  make_half_space "periodic" [n; m] [lx; ly] = Ret sb ->
  CCG_FiniteForce.fresh (solver_cfg o sb sf None (Some force) off pentol) 1 force.
Proof.
  intros o n m lx ly sb sf force off pentol N2 M2 X Y FP SG HB HS.
  destruct (half_space_cases _ _ _ _ HS) as [(_ & hs & C0 & ->)|(Q & _)]; [|discriminate].
  pose proof (count_pos o [n; m] [lx; ly] hs sf C0 eq_refl SG force off pentol) as CP.
  pose proof (count_points o [n; m] [lx; ly] hs sf C0 eq_refl SG force off pentol) as CT.
  set (c := solver_cfg o (periodic hs) sf None (Some force) off pentol) in *.
  apply (C82_start _ c force eq_refl eq_refl FP); [|exact CP|exact CT].
  intros s0 H0 z. assert (E0 : s0 = CCG_Model.init_state (CCG_Real.ROps _) c) by (cbn [CCG_Spec.after] in H0; congruence).
  rewrite E0. destruct (zero_response _ _ _ _ HS) as [_ Z].
  unfold CCG_Model.init_state. cbn [CCG_Model.s_f CCG_Real.ROps CCG_Model.mat CCG_Model.o0].
  destruct (CCG_Model.pad c z); [right; reflexivity|].
  unfold c at 1, solver_cfg. cbn [CCG_Model.c_f0 CCG_Model.c_u0].
  match goal with |- _ <= CCG_Model.c_force c ?u _ => replace u with (fun _ : pt (sb_sub (periodic hs)) => 0) end.
  - change (CCG_Model.c_force c) with (respond (sb_sub (periodic hs)) (sb_force (periodic hs))). rewrite Z. right; reflexivity.
  - apply functional_extensionality. intros y. cbn [CCG_Model.oltb CCG_Model.o0 CCG_Model.oadd CCG_Real.ROps].
    change (CCG_Model.c_u0 c) with (@None (pt (sb_sub (periodic hs)) -> R)). cbv iota.
    destruct (CCG_Model.comp c y); [|reflexivity].
    destruct (CCG_Real.Rltb 0 (CCG_Model.c_h c y + CCG_Model.c_offset c)) eqn:E; [|reflexivity].
    apply CCG_Real.Rltb_true in E. exfalso. apply (Rlt_irrefl 0). apply (Rlt_le_trans _ _ _ E).
    change (CCG_Model.c_h c y) with (a_val (heights sf) (px y) (py y)). change (CCG_Model.c_offset c) with off.
    destruct (in_grid [n; m] [lx; ly] hs C0 y) as [G1 G2]. apply HB; assumption.
Qed.
Print Assumptions C82_half_space_start.

(** ** Three points *)
Section Example3.
  Import CCG_Model CCG_Real CCG_Spec CCG_Hom CCG_Q CCG_Witness CCG_FiniteRun CCG_FiniteForce Prop_Stuck.

Definition all3 (p : p3) : bool := true.
Lemma list3 b : forall s : @state R p3, carried (rcfg_of pts3 b) s =
  (if (q_slice b A3 && negb (q_masked b A3))%bool then - s_f s A3 else 0) + ((if (q_slice b B3 && negb (q_masked b B3))%bool then - s_f s B3 else 0)
  + ((if (q_slice b C3 && negb (q_masked b C3))%bool then - s_f s C3 else 0) + 0)).
Proof. intros s. unfold carried. rewrite CCG_Results2.lsum_filter. reflexivity. Qed.

(** The load presses all three points together: no restart after the first spread. *)
Definition G3 : @qprob p3 :=
  mkProb all none (m3 2 1 (1#2) 2 1 2) (m3 0 0 0 0 0 0) (v3 0 (-2) (-2)) None (Some 12%Q) 0
    (Some (v3 0 0 0)) (1#1000) (1#1000) (1#1000).
Definition G3c : @cfg R p3 := rcfg_of pts3 G3.
Lemma sa3 : forall b, q_C b = m3 2 1 (1#2) 2 1 2 -> self_adjoint (grid (rcfg_of pts3 b)) (c_disp (rcfg_of pts3 b)).
Proof. intros b E f g. unfold lsum, grid, rcfg_of, rmatvec; simpl. rewrite E. unfold m3. q2r. lra. Qed.
Lemma co3 : forall b, q_C b = m3 2 1 (1#2) 2 1 2 -> compliant (grid (rcfg_of pts3 b)) (c_disp (rcfg_of pts3 b)).
Proof.
  intros b E f [p [_ Hp]]. unfold lsum, grid, rcfg_of, rmatvec; simpl. rewrite E. unfold m3. q2r.
  set (x := f A3). set (y := f B3). set (z := f C3).
  assert (Hx := Rle_0_sqr x). assert (Hy := Rle_0_sqr y). assert (Hz := Rle_0_sqr z).
  assert (Hxy := Rle_0_sqr (x + 3 / 4 * y)). assert (Hyz := Rle_0_sqr (z + 3 / 4 * y)). assert (Hxz := Rle_0_sqr (x + z)).
  assert (Hs := Rle_0_sqr (x + y + z)). assert (Hd := Rle_0_sqr (x - z)).
  assert (0 < x * x \/ 0 < y * y \/ 0 < z * z).
  { destruct p; apply Rsqr_pos_lt in Hp; unfold Rsqr in Hp; auto. }
  unfold Rsqr in *. lra.
Qed.
Lemma level3 b s : level_gap (rcfg_of pts3 b) all3 s A3 =
  s_u s A3 - Q2R (q_h b A3) - ((s_u s A3 - Q2R (q_h b A3)) + ((s_u s B3 - Q2R (q_h b B3)) + ((s_u s C3 - Q2R (q_h b C3)) + 0))) / 3.
Proof.
  unfold level_gap, mean_gap, lsum, grid, all3. cbn -[INR]. replace (INR 3) with 3 by (cbn; lra). reflexivity.
Qed.

Lemma settled3 b k m : (forall i, (i <= m)%nat -> exists st f0 f1 f2 u, look b (k + i) = Some (st, [f0; f1; f2], u)
    /\ Q2R f0 < 0 /\ Q2R f1 < 0 /\ Q2R f2 < 0 /\ (i = 0%nat \/ st = Cg)) ->
  settled (rcfg_of pts3 b) k m all3.
Proof.
  intros H i Hi. destruct (H i Hi) as (st & f0 & f1 & f2 & u & L & A & B & D & E).
  assert (U : exists u0 u1 u2, u = [u0; u1; u2]).
  { unfold look in L. destruct (qafter b (k + i)); [|discriminate]. injection L as _ _ _ _ <-. cbn. eauto. }
  destruct U as (u0 & u1 & u2 & ->). destruct (look_after _ _ _ _ _ _ _ _ _ L) as (s & Ha & Hs & Fa & Fb & Fd & _).
  exists s. split; [exact Ha|]. split.
  - intros []; rewrite ?Fa, ?Fb, ?Fd; split; auto.
  - intros L1. destruct E as [-> |E]; [lia|congruence].
Qed.
Ltac execute k b := let v := eval vm_compute in (look b k) in
  assert (look b k = v) by (vm_cast_no_check (eq_refl v)).
Ltac look_at b k i := let v := eval vm_compute in (look b (k + i)) in
  match v with Some (?st, [?f0; ?f1; ?f2], ?u) => exists st, f0, f1, f2, u end;
  split; [match goal with |- ?l = _ => vm_cast_no_check (eq_refl l) end|]; split; [q2r; lra|]; split; [q2r; lra|]; split; [q2r; lra|]; auto.

Lemma G3_settled : settled G3c 1 3 all3.
Proof.
  apply settled3. intros i Hi. destruct i as [|[|[|[|?]]]]; [| | | |lia].
  - look_at G3 1%nat 0%nat.
  - look_at G3 1%nat 1%nat.
  - look_at G3 1%nat 2%nat.
  - look_at G3 1%nat 3%nat.
Qed.
Example C82_nonvacuous :
  elastic G3c /\ c_ext G3c = Some (Q2R 12) /\ covers G3c /\ tolerances_positive G3c
  /\ linear (c_disp G3c) /\ self_adjoint (grid G3c) (c_disp G3c) /\ compliant (grid G3c) (c_disp G3c)
  /\ List.length (filter all3 (grid G3c)) = 3%nat /\ fresh G3c 1 (Q2R 12) /\ settled G3c 1 3 all3
  /\ (exists s, after G3c 2 = Ok s /\ level_gap G3c all3 s A3 <> 0)
  /\ exists r, ccg G3c 9 = Ok r /\ x_success r = true /\ (x_nit r <= 5)%nat.
Proof.
  assert (Cov : covers G3c) by (intros []; cbn; auto).
  assert (Tol : tolerances_positive G3c) by (unfold tolerances_positive; cbn; q2r; lra).
  assert (Li : linear (c_disp G3c)) by apply rmatvec_linear.
  assert (Sa : self_adjoint (grid G3c) (c_disp G3c)) by (apply sa3; reflexivity).
  assert (Co : compliant (grid G3c) (c_disp G3c)) by (apply co3; reflexivity).
  assert (Pos : 0 < Q2R 12) by (q2r; lra).
  assert (Fr : fresh G3c 1 (Q2R 12)).
  { apply (C82_start _ G3c (Q2R 12) eq_refl eq_refl Pos); [|cbn; lia|reflexivity].
    intros s0 H0 p. assert (E0 : s0 = init_state (ROps _) G3c) by (cbn [after] in H0; congruence). rewrite E0.
    destruct p; cbn; unfold lift, v3, pad, comp; cbn; q2r; lra. }
  split; [reflexivity|]. split; [reflexivity|]. do 5 (split; [assumption|]). split; [reflexivity|]. split; [exact Fr|]. split; [exact G3_settled|]. split.
  - execute 2%nat G3. destruct (look_after _ _ _ _ _ _ _ _ _ H) as (s & Ha & _ & _ & _ & _ & U0 & U1 & U2). exists s. split; [exact Ha|].
    unfold G3c. rewrite level3, U0, U1, U2. cbn [G3 q_h v3]. q2r. lra.
  - exact (C82_stops _ G3c (Q2R 12) 1 all3 9 eq_refl eq_refl Pos Cov Tol Li Sa Co Fr G3_settled ltac:(cbn; lia)).
Qed.

(** A restart of the solver's own spoils this.  The points added by a "sd"
    iteration come on top of the load; the next iteration scales all forces back,
    and the directions are no longer conjugate: three points, settled from iterate
    1 on, are still not level six iterations later. *)
Definition H3 : @qprob p3 :=
  mkProb all none (m3 2 1 (1#2) 2 1 2) (m3 0 0 0 0 0 0) (v3 0 (-1#2) (-2)) None (Some 4%Q) 0
    (Some (v3 (-3) 0 (-1))) (1#1000) (1#1000) (1#1000).
Definition H3c : @cfg R p3 := rcfg_of pts3 H3.
Lemma H3_settled : settled H3c 1 6 all3.
Proof.
  apply settled3. intros i Hi. destruct i as [|[|[|[|[|[|[|?]]]]]]]; [| | | | | | |lia].
  - look_at H3 1%nat 0%nat.
  - look_at H3 1%nat 1%nat.
  - look_at H3 1%nat 2%nat.
  - look_at H3 1%nat 3%nat.
  - look_at H3 1%nat 4%nat.
  - look_at H3 1%nat 5%nat.
  - look_at H3 1%nat 6%nat.
Qed.
Theorem C82_after_joining_refuted :
  exists (c : @cfg R p3) Fx C s0 s1 s2 r,
  elastic c /\ c_ext c = Some Fx /\ 0 < Fx /\ covers c /\ tolerances_positive c
  /\ linear (c_disp c) /\ self_adjoint (grid c) (c_disp c) /\ compliant (grid c) (c_disp c)
  /\ List.length (filter C (grid c)) = 3%nat
  /\ after c 0 = Ok s0 /\ (forall p, s_f s0 p <= 0) /\ carried c s0 = Fx
  /\ after c 1 = Ok s1 /\ s_str s1 = Sd /\ restarted c 1 /\ settled c 1 6 C /\ carried c s1 <> Fx
  /\ after c 7 = Ok s2 /\ (exists p, C p = true /\ level_gap c C s2 p <> 0)
  /\ ccg c 7 = Ok r /\ x_success r = false.
Proof.
  execute 1%nat H3. destruct (look_after _ _ _ _ _ _ _ _ _ H) as (s1 & A1 & St & F0 & F1 & F2 & _).
  execute 7%nat H3. destruct (look_after _ _ _ _ _ _ _ _ _ H0) as (s2 & A2 & _ & _ & _ & _ & U0 & U1 & U2).
  assert (R : exists r, ccg H3c 7 = Ok r /\ x_success r = false).
  { let v := eval vm_compute in (res3 H3 7) in assert (E : res3 H3 7 = v) by (vm_cast_no_check (eq_refl v)).
    destruct (exec3 _ _ _ _ _ _ _ _ _ _ _ _ _ _ _ _ E) as (r & Hr & Hs & _). exists r. split; assumption. }
  destruct R as (r & Hr & Hx).
  exists H3c, (Q2R 4), all3, (init_state (ROps _) H3c), s1, s2, r.
  split; [reflexivity|]. split; [reflexivity|]. split; [q2r; lra|]. split; [intros []; cbn; auto|].
  split; [unfold tolerances_positive; cbn; q2r; lra|]. split; [apply rmatvec_linear|].
  split; [apply sa3; reflexivity|]. split; [apply co3; reflexivity|]. split; [reflexivity|]. split; [reflexivity|].
  split; [intros []; cbn; unfold lift, v3, pad, comp; cbn; q2r; lra|].
  split; [unfold H3c; rewrite list3; cbn; unfold lift, v3, pad, comp; cbn; q2r; lra|].
  split; [exact A1|]. split; [exact St|]. split.
  { exists s1. split; [exact A1|]. split; [congruence|]. split; [intros []; rewrite ?F0, ?F1, ?F2; q2r; lra|].
    apply (CCG_Results2.after_inv H3c 1 s1 I A1). lia. }
  split; [exact H3_settled|]. split; [unfold H3c; rewrite list3, F0, F1, F2; cbn; q2r; lra|].
  split; [exact A2|]. split; [|split; assumption].
  exists A3. split; [reflexivity|]. unfold H3c. rewrite level3, U0, U1, U2. cbn [H3 q_h v3]. q2r. lra.
Qed.
Print Assumptions C82_after_joining_refuted.
End Example3.
