(** * C80 When the solver restarts its conjugate gradients, and runs it cannot recover from *)
From Coq Require Import Reals Lia Lra List Arith Bool String QArith Qreals FunctionalExtensionality.
From Coquelicot Require Import Complex.
From Verif Require Import Py FFT_Base HalfSpace_Spec HalfSpace_Model HalfSpace_Proofs HalfSpace_Results HalfSpace_Results2 Systems_Model Systems_Spec Systems_Proofs Pipeline_Model Pipeline_Spec Pipeline_Proofs Pipeline_More
  Contact_Spec Contact_Model Contact_Proofs Contact_Results Contact_Results2 Contact_Results3 Signorini_Spec Signorini_Periodic Prop_Signorini Prop_Pipeline Prop_Contact.
From Verif Require CCG_Model CCG_Real CCG_Spec CCG_Results2 CCG_Hom CCG_Q CCG_Witness CCG_FiniteRun CCG_Stuck CCG_Stuck2.
From Coq Require Import List.
Import ListNotations.
Local Open Scope R_scope.

(** ** Steps of the solver *)
Section Abstract.
  Import CCG_Model CCG_Real CCG_Spec CCG_FiniteRun CCG_Stuck.

(** An iterate with status "cg" presses on no point on which its predecessor did
    not press. *)
Theorem C80_shrinks : forall P (c : @cfg R P) k s s' p, elastic c -> offset_control c ->
  after c k = Ok s -> after c (S k) = Ok s' -> s_str s' = Cg -> s_f s' p < 0 -> s_f s p < 0.
Proof.
  intros P c k s s' p El He Ha Hb. cbn [after] in Hb. rewrite Ha in Hb.
  destruct (iter (ROps P) c s) as [fu|] eqn:Hi; [|discriminate]. injection Hb as <-. exact (area_shrinks c El He s fu p Hi).
Qed.
Print Assumptions C80_shrinks.

(** Following any other status, the next step is a steepest descent step. *)
Theorem C80_fresh : forall P (c : @cfg R P) k s s', elastic c -> offset_control c -> covers c ->
  after c k = Ok s -> after c (S k) = Ok s' -> s_str s <> Cg -> steepest_step c s s'.
Proof. intros P c k s s' El He. exact (fresh_step c El He k s s'). Qed.
Print Assumptions C80_fresh.

(** The documented reset happens whenever a point joins the contact area. *)
Theorem C80_joined : forall P (c : @cfg R P) k s s' s'', elastic c -> offset_control c -> covers c ->
  after c k = Ok s -> after c (S k) = Ok s' -> after c (S (S k)) = Ok s'' ->
  (exists p, s_f s' p < 0 /\ ~ s_f s p < 0) -> steepest_step c s' s''.
Proof. intros P c k s s' s'' El He. exact (joined c El He k s s' s''). Qed.
Print Assumptions C80_joined.

(** A call that gives up without any force left gives up without any force left
    however many more iterations it is allowed. *)
Theorem C80_dead_end : forall P (c : @cfg R P) k r, elastic c -> offset_control c -> (1 <= k)%nat ->
  ccg c k = Ok r -> x_success r = false -> (forall p, x_jac r p = 0) ->
  forall n, (k <= n)%nat -> exists r', ccg c n = Ok r' /\ x_success r' = false /\ x_nit r' = n /\
    x_message r' = ReachedMaxiter n /\ forall p, x_jac r' p = 0.
Proof. intros P c k r El He. exact (dead_end c El He k r). Qed.
Print Assumptions C80_dead_end.
End Abstract.

(** ** Three points: a point leaves the contact and nothing is reset *)
Section Example3.
  Import CCG_Model CCG_Real CCG_Spec CCG_Hom CCG_Q CCG_Witness CCG_FiniteRun CCG_Stuck.

Definition L3 : @qprob p3 :=
  mkProb all none (m3 1 0 (-2) 1 (-1) 7) (m3 3 1 1 (3#2) (1#2) (1#2)) (v3 3 (-3) (-1)) None None 0 None
    (1#100) (1#1000) (1#1000).
Definition L3c : @cfg R p3 := rcfg_of pts3 L3.
Definition L3C (p : p3) : bool := match p with B3 => false | _ => true end.
(** Another system, in which a point joins (the one of C79). *)
Definition J3 : @qprob p3 :=
  mkProb all none (m3 2 1 (1#2) 2 (1#2) 1) (m3 0 0 0 0 0 0) (v3 3 3 (-10)) None None 0
    (Some (v3 (-1) 0 0)) (1#1000) (1#1000) (1#1000).

Fixpoint qafter (b : @qprob p3) (k : nat) : result (@state Q p3) :=
  match k with
  | O => Ok (init_state (QOps eqb3 pts3) (qcfg pts3 b))
  | S k => match qafter b k with
           | Raise e => Raise e
           | Ok s => match iter (QOps eqb3 pts3) (qcfg pts3 b) s with
                     | Raise e => Raise e
                     | Ok fu => Ok (fu_state fu)
                     end
           end
  end.
Lemma qafter_ok b k : after (rcfg_of pts3 b) k = map_ok (map_state Q2R) (qafter b k).
Proof.
  pose proof (QR_hom eqb3 eqb3_eq pts3) as H. pose proof (cfg_of_hom pts3 b) as C.
  induction k as [|k IH]; cbn [after qafter].
  - cbn [map_ok]. f_equal. exact (init_hom _ _ Q2R H _ _ C).
  - rewrite IH. destruct (qafter b k) as [s|]; [|reflexivity]. cbn [map_ok].
    rewrite (iter_hom _ _ Q2R H _ _ C). destruct (iter _ _ s) as [fu|]; reflexivity.
Qed.
(** Status, forces and displacements of an iterate. *)
Definition look (b : @qprob p3) (k : nat) : option (status * list Q * list Q) :=
  match qafter b k with
  | Ok s => Some (s_str s, map (fun p => Qred (s_f s p)) pts3, map (fun p => Qred (s_u s p)) pts3)
  | Raise _ => None
  end.
Lemma look_after b k st f0 f1 f2 u0 u1 u2 : look b k = Some (st, [f0; f1; f2], [u0; u1; u2]) ->
  exists s, after (rcfg_of pts3 b) k = Ok s /\ s_str s = st /\ s_f s A3 = Q2R f0 /\ s_f s B3 = Q2R f1 /\ s_f s C3 = Q2R f2
    /\ s_u s A3 = Q2R u0 /\ s_u s B3 = Q2R u1 /\ s_u s C3 = Q2R u2.
Proof.
  unfold look. rewrite qafter_ok. destruct (qafter b k) as [s|]; [|discriminate]. intros H.
  injection H as H1 H2 H3 H4 H5 H6 H7. red_eqs. exists (map_state Q2R s). cbn. unfold lift. repeat split; auto.
Qed.
Ltac execute k b := let v := eval vm_compute in (look b k) in
  assert (look b k = v) by (vm_cast_no_check (eq_refl v)).
(** Pressing on the outer points only, with status "cg". *)
Definition outer (k : nat) : bool :=
  match look L3 k with
  | Some (Cg, [f0; f1; f2], _) => Qltb f0 0 && Qeq_bool f1 0 && Qltb f2 0
  | _ => false
  end.
Lemma outer_after k : outer k = true ->
  exists s, after L3c k = Ok s /\ s_str s = Cg /\ forall p, s_f s p < 0 <-> L3C p = true.
Proof.
  unfold outer. destruct (look L3 k) as [[[[] [|f0 [|f1 [|f2 [|? ?]]]]] u]|] eqn:E; try discriminate.
  destruct u as [|u0 [|u1 [|u2 [|? ?]]]]; try (unfold look in E; destruct (qafter L3 k); discriminate).
  destruct (look_after _ _ _ _ _ _ _ _ _ E) as (s & Ha & Hs & Fa & Fb & Fd & _).
  intros H. apply andb_prop in H. destruct H as [H H2]. apply andb_prop in H. destruct H as [H0 H1].
  assert (Lt : forall q, Qltb q 0 = true -> Q2R q < 0).
  { intros q Hq. unfold Qltb in Hq. apply Rnot_le_lt. intros Hle. replace 0 with (Q2R 0) in Hle by (unfold Q2R; cbn; lra).
    apply Rle_Qle, Qle_bool_iff in Hle. rewrite Hle in Hq. discriminate. }
  apply Lt in H0, H2. apply Qeq_bool_eq, Qeq_eqR in H1. replace (Q2R 0) with 0 in H1 by (unfold Q2R; cbn; lra).
  exists s. split; [exact Ha|]. split; [exact Hs|]. intros []; cbn [L3C]; rewrite ?Fa, ?Fb, ?Fd; split; intros; try lra; try reflexivity; discriminate.
Qed.

Lemma L3_data : elastic L3c /\ offset_control L3c /\ covers L3c /\ tolerances_positive L3c
  /\ linear (c_disp L3c) /\ self_adjoint (grid L3c) (c_disp L3c) /\ compliant (grid L3c) (c_disp L3c).
Proof.
  split; [reflexivity|]. split; [reflexivity|]. split; [intros []; cbn; auto|].
  split; [unfold tolerances_positive; cbn; q2r; lra|]. split; [apply rmatvec_linear|]. split.
  - intros f g. unfold lsum, grid, L3c, rcfg_of, rmatvec, L3, q_C, m3; simpl. q2r. lra.
  - intros f [p [_ Hp]]. unfold lsum, grid, L3c, rcfg_of, rmatvec, L3, q_C, m3; simpl. q2r.
    set (x := f A3). set (y := f B3). set (z := f C3).
    assert (Hx := Rle_0_sqr (x - 2 * z)). assert (Hy := Rle_0_sqr (y - z)). assert (Hz := Rle_0_sqr z).
    unfold Rsqr in *.
    assert (0 < (x - 2 * z) * (x - 2 * z) \/ 0 < (y - z) * (y - z) \/ 0 < z * z).
    { destruct (Req_dec z 0) as [Ez|Hz'].
      - rewrite Ez. destruct p; [left|right; left|contradiction]; apply Rsqr_pos_lt in Hp; unfold Rsqr in Hp; fold x in Hp; fold y in Hp; lra.
      - right; right. apply Rsqr_pos_lt in Hz'. exact Hz'. }
    lra.
Qed.

(** The description of the solver says "The conjugate gradient iteration is reset
    using the steepest descent direction whenever the contact area changes".  It
    is not reset when a point leaves: the middle point loses contact in the first
    iteration, and the second is no steepest descent step. *)
Theorem C80_reset_refuted : exists (c : @cfg R p3) s s' s'',
  elastic c /\ offset_control c /\ covers c
  /\ linear (c_disp c) /\ self_adjoint (grid c) (c_disp c) /\ compliant (grid c) (c_disp c)
  /\ after c 0 = Ok s /\ after c 1 = Ok s' /\ after c 2 = Ok s''
  /\ (forall p, s_f s p < 0) /\ ~ s_f s' B3 < 0
  /\ ~ steepest_step c s' s''.
Proof.
  destruct L3_data as (D1 & D2 & D3 & _ & D5 & D6 & D7).
  execute 0%nat L3. destruct (look_after L3 0 _ _ _ _ _ _ _ ltac:(eassumption)) as (s & Ha & _ & F0 & F1 & F2 & _).
  execute 1%nat L3. destruct (look_after L3 1 _ _ _ _ _ _ _ ltac:(eassumption)) as (s' & Hb & _ & G0 & G1 & G2 & U0 & U1 & U2).
  execute 2%nat L3. destruct (look_after L3 2 _ _ _ _ _ _ _ ltac:(eassumption)) as (s'' & Hc & _ & K0 & K1 & K2 & _).
  exists L3c, s, s', s''. do 6 (split; [assumption|]). do 3 (split; [assumption|]).
  split; [intros []; rewrite ?F0, ?F1, ?F2; q2r; lra|]. split; [rewrite G1; q2r; lra|].
  intros (tau & S). pose proof (S A3 (conj eq_refl eq_refl)) as S1. pose proof (S C3 (conj eq_refl eq_refl)) as S2.
  unfold projected_step, iterate_gap in S1, S2. rewrite G0, K0, U0 in S1. rewrite G2, K2, U2 in S2.
  unfold L3c, rcfg_of, L3, lift, v3 in S1, S2. cbn [c_h c_offset q_h q_off] in S1, S2. q2r_in S1. q2r_in S2.
  repeat (destruct (Rlt_dec _ 0) in S1; try lra). repeat (destruct (Rlt_dec _ 0) in S2; try lra).
Qed.
Print Assumptions C80_reset_refuted.

(** Consequence: with the contact area settled from the first iteration on, and
    two contact points, the bound of C79 is missed.  Its hypothesis [restarted] is
    needed. *)
Theorem C80_no_restart_refuted : exists (c : @cfg R p3) C r,
  elastic c /\ offset_control c /\ covers c /\ tolerances_positive c
  /\ linear (c_disp c) /\ self_adjoint (grid c) (c_disp c) /\ compliant (grid c) (c_disp c)
  /\ (exists p, C p = true) /\ List.length (filter C (grid c)) = 2%nat /\ settled c 1 5 C
  /\ (forall s p, after c 1 = Ok s -> s_f s p <= 0)
  /\ ccg c 6 = Ok r /\ x_success r = false /\ exists s, after c 6 = Ok s /\ 1 / 10 < iterate_gap c s C3.
Proof.
  destruct L3_data as (D1 & D2 & D3 & D4 & D5 & D6 & D7).
  assert (O : forall k, (1 <= k <= 6)%nat -> outer k = true).
  { intros k Hk. destruct k as [|[|[|[|[|[|[|?]]]]]]]; try lia; vm_compute; reflexivity. }
  assert (X : match run (QOps eqb3 pts3) (qcfg pts3 L3) 6 with Ok r => x_success r | Raise _ => true end = false)
    by (vm_cast_no_check (eq_refl false)).
  destruct (run (QOps eqb3 pts3) (qcfg pts3 L3) 6) as [rq|] eqn:Hr; [|discriminate]. apply (ccg_exec eqb3 eqb3_eq) in Hr.
  set (r := map_result Q2R rq) in *. assert (Hs : x_success r = false) by exact X. clearbody r.
  exists L3c, L3C, r. do 7 (split; [assumption|]). split; [exists A3; reflexivity|]. split; [reflexivity|]. split.
  { intros i Hi. destruct (outer_after (1 + i) (O (1 + i)%nat ltac:(lia))) as (s & Ha & Hst & Hp). exists s. auto. }
  split.
  { intros s p Ha. execute 1%nat L3. destruct (look_after L3 1 _ _ _ _ _ _ _ ltac:(eassumption)) as (s' & Hb & _ & G0 & G1 & G2 & _).
    fold L3c in Hb. assert (s' = s) by congruence. subst s'. destruct p; rewrite ?G0, ?G1, ?G2; q2r; lra. }
  split; [exact Hr|]. split; [exact Hs|].
  execute 6%nat L3. destruct (look_after L3 6 _ _ _ _ _ _ _ ltac:(eassumption)) as (s & Ha & _ & _ & _ & _ & _ & _ & U2).
  exists s. split; [exact Ha|]. unfold iterate_gap. rewrite U2.
  unfold L3c, rcfg_of, L3, lift, v3. cbn [c_h c_offset q_h q_off]. q2r. lra.
Qed.
Print Assumptions C80_no_restart_refuted.

(** A joining point: hypotheses of [C80_joined] and [C80_shrinks]. *)
Example C80_nonvacuous :
  (exists s s' s'', after (rcfg_of pts3 J3) 0 = Ok s /\ after (rcfg_of pts3 J3) 1 = Ok s' /\ after (rcfg_of pts3 J3) 2 = Ok s''
    /\ s_f s' B3 < 0 /\ ~ s_f s B3 < 0 /\ s_str s' = Sd /\ s_str s'' = Cg /\ s_f s'' B3 <> s_f s' B3
    /\ steepest_step (rcfg_of pts3 J3) s' s'')
  /\ covers (rcfg_of pts3 J3).
Proof.
  assert (Cov : covers (rcfg_of pts3 J3)) by (intros []; cbn; auto).
  execute 0%nat J3. destruct (look_after J3 0 _ _ _ _ _ _ _ ltac:(eassumption)) as (s & Ha & _ & F0 & F1 & F2 & _).
  execute 1%nat J3. destruct (look_after J3 1 _ _ _ _ _ _ _ ltac:(eassumption)) as (s' & Hb & Hs & G0 & G1 & G2 & _).
  execute 2%nat J3. destruct (look_after J3 2 _ _ _ _ _ _ _ ltac:(eassumption)) as (s'' & Hc & Ht & K0 & K1 & K2 & _).
  split; [|exact Cov]. exists s, s', s''. split; [exact Ha|]. split; [exact Hb|]. split; [exact Hc|].
  assert (N1 : s_f s' B3 < 0) by (rewrite G1; q2r; lra). assert (N0 : ~ s_f s B3 < 0) by (rewrite F1; q2r; lra).
  split; [exact N1|]. split; [exact N0|]. split; [exact Hs|]. split; [exact Ht|]. split; [rewrite K1, G1; q2r; lra|].
  apply (C80_joined _ (rcfg_of pts3 J3) 0 s s' s'' eq_refl eq_refl Cov Ha Hb Hc). exists B3. auto.
Qed.
End Example3.

(** ** A periodic half-space of sides 15 and 1 on which the solver loses all contact *)

Definition long_rows : surface :=
  mkSurface [2; 2]%nat (fun i _ => if Nat.eqb i 0 then -4 else 3) (fun _ _ => 0) 0 (15 / 4).
Definition long_at (maxiter : nat) : cm_args :=
  mkCm long_rows [15; 1] true false None None (Some [0]) None None maxiter.

Lemma long_k0 : (wavenumber [2; 2]%nat 15 1 1 0 + wavenumber [2; 2]%nat 15 1 0 1) / 4 = 8 * PI / 15
  /\ wavenumber [2; 2]%nat 15 1 1 0 = 2 * PI / 15 /\ 0 < wavenumber [2; 2]%nat 15 1 0 1.
Proof.
  unfold wavenumber. cbn [gx gy nth Nat.min Nat.sub INR].
  replace ((1 / 15) ^ 2 + (0 / 1) ^ 2) with (Rsqr (1 / 15)) by (unfold Rsqr; field). replace ((0 / 15) ^ 2 + (1 / 1) ^ 2) with 1 by field.
  rewrite sqrt_Rsqr by lra. rewrite sqrt_1. pose proof PI_RGT_0. repeat split; lra.
Qed.
(** Response to a displacement that depends on the row only. *)
Definition by_row (a b : R) : field := fun i _ => if Nat.eqb i 0 then a else b.
Lemma long_response : forall a b, periodic_response [2; 2]%nat 15 1
  (by_row (PI / 30 * (9 * a + 7 * b)) (PI / 30 * (7 * a + 9 * b))) (by_row a b).
Proof.
  intros a b. destruct long_k0 as (K0 & K1 & K2). pose proof PI_RGT_0 as PP.
  assert (W : forall i j, (i < 2)%nat -> (j < 2)%nat -> plane_wave [2; 2]%nat 1 0 0 i j = if Nat.eqb i 0 then 1 else -1).
  { intros i j Hi Hj. unfold plane_wave. cbn. destruct i as [|[|?]]; [| |lia]; cbn.
    - replace (2 * PI * (1 * 0 / (1 + 1) + 0 * INR j / (1 + 1)) + 0) with 0 by field. apply cos_0.
    - replace (2 * PI * (1 * 1 / (1 + 1) + 0 * INR j / (1 + 1)) + 0) with PI by field. apply cos_PI. }
  pose proof (wave_response [2; 2]%nat 15 1 1 0 0 ltac:(cbn; lia) ltac:(cbn; lia) ltac:(split; cbn; lia) ltac:(lia) ((a - b) / 2) ((a + b) / 2)) as PR.
  assert (L15 : 0 < 15) by lra.
  rewrite K0, K1 in PR. specialize (PR ltac:(lra) ltac:(lra) (fun k l Gk Z => wavenumber_pos _ _ _ _ _ L15 Rlt_0_1 Gk Z)).
  destruct PR as [P1 P2].
  assert (EP : forall i j, (i < 2)%nat -> (j < 2)%nat -> by_row (PI / 30 * (9 * a + 7 * b)) (PI / 30 * (7 * a + 9 * b)) i j
     = 2 * PI / 15 / 2 * ((a - b) / 2) * plane_wave [2; 2]%nat 1 0 0 i j + 8 * PI / 15 * ((a + b) / 2)).
  { intros i j Hi Hj. rewrite W by assumption. unfold by_row. destruct (Nat.eqb i 0); field. }
  assert (EU : forall i j, (i < 2)%nat -> (j < 2)%nat -> by_row a b i j = (a - b) / 2 * plane_wave [2; 2]%nat 1 0 0 i j + (a + b) / 2).
  { intros i j Hi Hj. rewrite W by assumption. unfold by_row. destruct (Nat.eqb i 0); field. }
  split.
  - intros k l Gk Z. specialize (P1 k l Gk Z). cbn [gx gy nth] in *. rewrite (fft2_ext _ _ _ _ k l EU), (fft2_ext _ _ _ _ k l EP). exact P1.
  - unfold mean, HalfSpace_Spec.total in *. cbn [gx gy nth] in *. rewrite (Rsum2_ext _ _ _ _ EU), (Rsum2_ext _ _ _ _ EP). exact P2.
Qed.
(** The contact problem has a solution, pressing on the second row. *)
Lemma long_contact : in_contact [2; 2]%nat 15 1 (a_val (heights long_rows)) 0
  (by_row 0 (16 * PI / 45)) (by_row (- 7 / 3) 3).
Proof.
  pose proof PI_RGT_0 as PP. split.
  - pose proof (long_response (- 7 / 3) 3) as L.
    replace (PI / 30 * (9 * (- 7 / 3) + 7 * 3)) with 0 in L by field. replace (PI / 30 * (7 * (- 7 / 3) + 9 * 3)) with (16 * PI / 45) in L by field. exact L.
  - intros i j _. unfold by_row, gap, heights, long_rows. cbn [a_val sf_base sf_plastic]. destruct (Nat.eqb i 0); repeat split; lra.
Qed.
Lemma long_load : mean [2; 2]%nat (by_row 0 (16 * PI / 45)) = 8 * PI / 45.
Proof. unfold mean, HalfSpace_Spec.total, Rsum2, by_row. cbn. field. Qed.

(** Whatever the number of iterations, from two on: no success, no force. *)
Theorem C80_long : forall o sb pentol n, make_half_space "periodic" [2; 2]%nat [15; 1] = Ret sb -> pentol <= 4 -> (2 <= n)%nat ->
  exists r, CCG_Spec.ccg (solver_cfg o sb long_rows None None 0 pentol) n = CCG_Model.Ok r
    /\ CCG_Model.x_success r = false /\ CCG_Model.x_nit r = n /\ forall z, CCG_Model.x_jac r z = 0.
Proof.
  intros o sb pentol n HS PT Hn. pose proof PI_RGT_0 as PP.
  destruct (half_space_cases _ _ _ _ HS) as [(_ & hs & CH & ->)|(Q & _)]; [|discriminate].
  assert (L15 : 0 < 15) by lra.
  pose proof (hs_area 2 2 15 1 hs L15 Rlt_0_1 CH) as PA.
  assert (GS : sb_sub (periodic hs) = [2; 2]%nat) by exact (hs_grid _ _ CH).
  destruct (half_space_shapes _ _ _ _ HS) as (_ & CS & _).
  set (c := solver_cfg o (periodic hs) long_rows None None 0 pentol).
  set (row := fun z : pt (sb_sub (periodic hs)) => negb (Nat.eqb (px z) 0)).
  set (A := area_per_pt (s_hs hs)) in *. set (U := A * (16 * PI / 15)).
  assert (UP : 0 < U) by (unfold U; apply Rmult_lt_0_compat; [exact PA|lra]).
  assert (RF : forall p u, periodic_response [2; 2]%nat 15 1 p u ->
     respond (sb_sub (periodic hs)) (evaluate_force hs) (read _ u) = (fun z => - (A * p (px z) (py z)))
     /\ respond (sb_sub (periodic hs)) (evaluate_disp hs) (fun z => - (A * p (px z) (py z))) = read _ u).
  { intros p u PR. rewrite GS. exact (response_force [2; 2]%nat [15; 1] hs p u CH (positive_two _ _ L15 Rlt_0_1) eq_refl PR). }
  assert (TW : forall a b, CCG_Stuck2.two row a b = read _ (by_row a b)).
  { intros a b. apply functional_extensionality. intros z. unfold CCG_Stuck2.two, row, read, by_row. destruct (Nat.eqb (px z) 0); reflexivity. }
  assert (Surf : forall z, CCG_Spec.on_surface c z).
  { intros z. apply cfg_surface. rewrite CS. apply inside_true. rewrite <- GS. exact (pt_inside _ z). }
  assert (TI : exists r, CCG_Spec.ccg c 2 = CCG_Model.Ok r /\ CCG_Model.x_success r = false /\ forall z, CCG_Model.x_jac r z = 0).
  { apply (CCG_Stuck2.two_iterations c row U); try reflexivity.
    - apply cfg_covers.
    - exact UP.
    - exact Surf.
    - intros z. rewrite TW. unfold c, solver_cfg, read, by_row, heights, long_rows. cbn. destruct (Nat.eqb (px z) 0); try reflexivity; cbn; lra.
    - intros a b. rewrite TW. change (CCG_Model.c_force c) with (respond (sb_sub (periodic hs)) (evaluate_force hs)).
      rewrite (proj1 (RF _ _ (long_response a b))). apply functional_extensionality. intros z.
      unfold CCG_Stuck2.two, row, by_row, U. destruct (Nat.eqb (px z) 0); cbn [negb]; field.
    - intros a b. set (a' := - (9 * a - 7 * b) / U). set (b' := - (9 * b - 7 * a) / U).
      rewrite (TW a' b'), <- (proj2 (RF _ _ (long_response a' b'))). change (CCG_Model.c_disp c) with (respond (sb_sub (periodic hs)) (evaluate_disp hs)).
      f_equal. apply functional_extensionality. intros z. unfold CCG_Stuck2.two, row, by_row, a', b', U.
      destruct (Nat.eqb (px z) 0); cbn [negb]; field; lra.
    - intros a b. unfold c. rewrite cfg_grid, sum_points.
      assert (E : forall x y, (x < gx (sb_sub (periodic hs)))%nat -> (y < gy (sb_sub (periodic hs)))%nat ->
         write (sb_sub (periodic hs)) 0 (CCG_Stuck2.two row a b) x y = by_row a b x y).
      { intros x y Hx Hy. rewrite TW. apply write_read. split; assumption. }
      rewrite (Rsum2_ext _ _ _ _ E), GS. unfold Rsum2, by_row. cbn. lra.
    - assert (HG : (0 < gx (sb_sub (periodic hs)))%nat /\ (0 < gy (sb_sub (periodic hs)))%nat) by (rewrite GS; cbn; lia).
      exists (at_pt _ 0 0 HG). reflexivity.
    - exact PT. }
  destruct TI as (r & R1 & R2 & R3).
  destruct (C80_dead_end _ c 2 r eq_refl eq_refl ltac:(lia) R1 R2 R3 n Hn) as (r' & E1 & E2 & E3 & _ & E5). exists r'. auto.
Qed.
Print Assumptions C80_long.

(** That a large enough [maxiter] makes the calculation converge is false: on this
    surface it reports failure and no load for every [maxiter], though the contact
    problem is solved by a positive pressure. *)
Theorem C80_maxiter_refuted : exists a : nat -> cm_args,
  (forall n, a n = mkCm (cm_topography (a 2%nat)) (cm_sizes (a 2%nat)) true false None None (Some [0]) None None n)
  /\ (exists p u, in_contact [2; 2]%nat 15 1 (a_val (heights (cm_topography (a 2%nat)))) 0 p u /\ mean [2; 2]%nat p = 8 * PI / 45)
  /\ forall n, (2 <= n)%nat -> exists calls ar d g,
       contact_mechanics (ccg_solver usual) deviation silent (a n) = (calls, Ret ([0], ar, d, g, [false])).
Proof.
  exists long_at. split; [reflexivity|]. split.
  { exists (by_row 0 (16 * PI / 45)), (by_row (- 7 / 3) 3). split; [exact long_contact|exact long_load]. }
  intros n Hn.
  destruct (C74_returns usual deviation silent (long_at n) 2 2 15 1) as (calls & [[[[p ar] d] g] c] & H);
    try reflexivity; try (left; reflexivity); try (cbn; lia); try (intros l o; reflexivity).
  destruct (elastic_steps usual deviation silent (long_at n) _ _ _ _ _ _ _ _ _ _ eq_refl eq_refl H eq_refl eq_refl) as (L & L1 & _ & _ & _ & L5 & F).
  assert (RQ : requested (long_at n) = 1%nat) by reflexivity. rewrite RQ in *.
  destruct calls as [|out calls]; [discriminate|]. destruct (F 0%nat out eq_refl) as (sb & sa & r & SO & _ & HS & _ & SV & PT & MI & C0 & P0 & _).
  destruct (SO [0] eq_refl) as (x & X & OF & FO). cbn in X. injection X as <-.
  apply solver_inv in SV. destruct SV as (r' & E & ->). rewrite OF, FO, PT, MI in E.
  assert (TOL : tolerance deviation (long_at n) <= 4).
  { unfold tolerance. replace (deviation (heights (cm_topography (long_at n)))) with (7 / 2).
    - cbn. destruct (Rle_dec _ _); lra.
    - pose proof (rows_deviation (-4) 3) as D. replace (-4 - 3) with (- (7)) in D by lra. rewrite Rabs_Ropp, Rabs_right in D by lra.
      rewrite <- D. reflexivity. }
  destruct (C80_long usual sb _ n HS TOL Hn) as (r'' & E' & S' & _ & J').
  change (cm_topography (long_at n)) with long_rows in E. change (cm_maxiter (long_at n)) with n in E.
  assert (r'' = r') by congruence. subst r''.
  exists (out :: calls), ar, d, g. rewrite H. do 2 f_equal.
  destruct p as [|p0 [|? ?]]; try discriminate. destruct c as [|c0 [|? ?]]; try discriminate.
  assert (JA : a_val (o_jac (result_object sb r')) = fun _ _ => 0).
  { cbn [result_object o_jac a_val]. apply functional_extensionality. intros y. apply functional_extensionality. intros z.
    unfold write. destruct (bool_dec _ true); [apply J'|reflexivity]. }
  rewrite JA in P0. cbn [nth_error] in C0, P0. cbn [result_object o_success] in C0. rewrite S' in C0.
  assert (Z : asum (mkArr [2; 2]%nat (fun _ _ => 0)) / (15 * 1) = 0) by (cbn; field).
  rewrite Z in P0. injection C0 as ->. injection P0 as ->. reflexivity.
Qed.
Print Assumptions C80_maxiter_refuted.

(** Hypotheses of [C80_long] and [C80_dead_end]. *)
Example C80_long_nonvacuous : exists sb r, make_half_space "periodic" [2; 2]%nat [15; 1] = Ret sb
  /\ CCG_Spec.ccg (solver_cfg usual sb long_rows None None 0 (1 / 100)) 2 = CCG_Model.Ok r
  /\ CCG_Model.x_success r = false /\ forall z, CCG_Model.x_jac r z = 0.
Proof.
  destruct (half_space_ok "periodic" 2 2 15 1 (or_introl (conj eq_refl (conj (le_n 2) (le_n 2))))) as (sb & HS & _).
  destruct (C80_long usual sb (1 / 100) 2 HS ltac:(lra) (le_n 2)) as (r & E & S1 & _ & J). exists sb, r. auto.
Qed.
