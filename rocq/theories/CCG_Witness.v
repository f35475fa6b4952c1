(** Concrete contact problems, executed in the rational model and transferred
    to the real-number model: non-vacuity examples and counterexamples. *)
From Coq Require Import Reals Lra List Bool Arith QArith Qreals FunctionalExtensionality Lia.
From Verif Require Import CCG_Model CCG_Real CCG_Spec CCG_Hom CCG_Q.
Import ListNotations.

(** Two and three grid points. *)
Definition pts2 : list bool := [false; true].
Inductive p3 := A3 | B3 | C3.
Definition eqb3 (x y : p3) : bool :=
  match x, y with A3, A3 => true | B3, B3 => true | C3, C3 => true | _, _ => false end.
Lemma eqb3_eq a b : eqb3 a b = true -> a = b.
Proof. destruct a, b; simpl; congruence. Qed.
Lemma eqb2_eq a b : Bool.eqb a b = true -> a = b.
Proof. apply Bool.eqb_prop. Qed.
Definition pts3 : list p3 := [A3; B3; C3].

Definition v2 (a b : Q) (p : bool) : Q := if p then b else a.
Definition m2 (a b d : Q) (p q : bool) : Q :=
  match p, q with false, false => a | true, true => d | _, _ => b end.
Definition v3 (a b c : Q) (p : p3) : Q := match p with A3 => a | B3 => b | C3 => c end.
Definition m3 (a b c d e f : Q) (p q : p3) : Q :=
  match p, q with
  | A3, A3 => a | B3, B3 => d | C3, C3 => f
  | A3, B3 | B3, A3 => b | A3, C3 | C3, A3 => c | B3, C3 | C3, B3 => e
  end.

Definition all {P} (p : P) := true.
Definition none {P} (p : P) := false.

(** *** E1: two points, displacement control; converges in two iterations with
    status cg and a non-zero step length. *)
Definition E1 : @qprob bool :=
  mkProb all none (m2 1 (1#2) 1) (m2 (4#3) (-2#3) (4#3)) (v2 1 (-1)) None None 0 None
    (1#2) 1 (1#2).
Definition E1c : @cfg R bool := rcfg_of pts2 E1.

(** *** E2: three points, the third is padding, the second masked; hardness. *)
Definition E2 : @qprob p3 :=
  mkProb (fun p => negb (eqb3 p C3)) (eqb3 B3) (m3 1 (1#2) (1#4) 1 (1#2) 1)
    (m3 (4#3) (-2#3) 0 (5#3) (-2#3) (4#3)) (v3 1 5 7) (Some (2#1)) None (1#2) None
    (1#2) 1 (1#2).
Definition E2c : @cfg R p3 := rcfg_of pts3 E2.

(** *** E3: force control, two points. *)
Definition E3 : @qprob bool :=
  mkProb all none (m2 1 (1#2) 1) (m2 (4#3) (-2#3) (4#3)) (v2 1 (3#4)) None (Some 3) 0 None
    (1#100) (1#100) (1#100).
Definition E3c : @cfg R bool := rcfg_of pts2 E3.

(** *** E4: plastic run that mixes. *)
Definition E4 : @qprob bool :=
  mkProb all none (m2 1 (1#2) 1) (m2 (4#3) (-2#3) (4#3)) (v2 1 1) (Some (1#10)) None 1 None
    (1#10) (1#10) (1#10).
Definition E4c : @cfg R bool := rcfg_of pts2 E4.


(** *** Refutation witnesses *)
(** Displacement control: a penetrating point receives no force because the
    step length is zero. *)
Definition W5 : @qprob p3 :=
  mkProb all none (m3 1 (3#4) (1#4) 1 (3#4) 1) (m3 (14#3) (-6) (10#3) 10 (-6) (14#3))
    (v3 (-7#4) (5#4) 2) None None 2 None (1#1000) (1#1000) (1#1000).
Definition W5c : @cfg R p3 := rcfg_of pts3 W5.
(** Force control: the active set is a single point. *)
Definition W5f : @qprob bool :=
  mkProb all none (m2 1 (1#2) 1) (m2 (4#3) (-2#3) (4#3)) (v2 1 (1#2)) None (Some 3) 0 None
    (1#100) (1#100) (1#100).
Definition W5fc : @cfg R bool := rcfg_of pts2 W5f.
(** A tensile force. *)
Definition W6 : @qprob p3 :=
  mkProb all none (m3 (5#2) 2 0 3 (1#2) (11#2))
    (m3 (130#149) (-88#149) (8#149) (110#149) (-10#149) (28#149)) (v3 (-3#4) 0 (-3#4)) None None (5#4)
    (Some (v3 (-1) 0 (-1#4))) (1#2) (1#2) (1#2).
Definition W6c : @cfg R p3 := rcfg_of pts3 W6.
(** A force above the hardness. *)
Definition W15 : @qprob p3 :=
  mkProb all none (m3 (5#4) (1#4) (1#4) (5#4) (1#4) (5#4)) (m3 (6#7) (-1#7) (-1#7) (6#7) (-1#7) (6#7))
    (v3 (-3#4) (-1#2) (3#2)) (Some (1#4)) None (5#4) None (1#2) (1#2) (1#2).
Definition W15c : @cfg R p3 := rcfg_of pts3 W15.
(** A loaded point far from the surface (zero step length). *)
Definition W4 : @qprob bool :=
  mkProb all none (m2 1 (3#4) 1) (m2 (16#7) (-12#7) (16#7)) (v2 3 (13#12)) None None 0
    (Some (v2 (-1) (-4#3))) (1#1000) (1#1000) (1#1000).
Definition W4c : @cfg R bool := rcfg_of pts2 W4.

(** *** Execution *)
Definition seqb (a b : status) : bool :=
  match a, b with Reset, Reset => true | Sd, Sd => true | Cg, Cg => true | Mix, Mix => true | _, _ => false end.
Lemma seqb_eq a b : seqb a b = true -> a = b.
Proof. destruct a, b; simpl; congruence. Qed.

Definition obs {P} (pts : list P) (r : @sresult Q P) :=
  (x_success r, x_nit r, x_str r, Qred (x_tau r), map (fun p => Qred (x_jac r p)) pts,
   map (fun p => Qred (x_x r p)) pts, Qred (x_offset r), map (x_active r) pts).
Definition res2 b n := match run (QOps Bool.eqb pts2) (qcfg pts2 b) n with Ok r => Some (obs pts2 r) | _ => None end.
Definition res3 b n := match run (QOps eqb3 pts3) (qcfg pts3 b) n with Ok r => Some (obs pts3 r) | _ => None end.

Ltac red_eqs :=
  repeat match goal with H : Qred _ = _ |- _ => apply (f_equal Q2R) in H; rewrite Q2R_red in H end.

Lemma exec2 b n s k st tau j0 j1 u0 u1 o a0 a1 :
  res2 b n = Some (s, k, st, tau, [j0; j1], [u0; u1], o, [a0; a1]) ->
  exists r, ccg (rcfg_of pts2 b) n = Ok r /\ x_success r = s /\ x_nit r = k /\ x_str r = st /\
    x_tau r = Q2R tau /\ x_jac r false = Q2R j0 /\ x_jac r true = Q2R j1 /\
    x_x r false = Q2R u0 /\ x_x r true = Q2R u1 /\ x_offset r = Q2R o /\
    x_active r false = a0 /\ x_active r true = a1.
Proof.
  unfold res2. intros H. destruct (run _ _ _) as [r|] eqn:E; [|discriminate].
  exists (map_result Q2R r). split; [apply (ccg_exec Bool.eqb eqb2_eq); auto|].
  unfold obs in H. injection H as H1 H2 H3 H4 H5 H6 H7 H8 H9 H10 H11. red_eqs.
  unfold map_result; cbn; unfold lift. repeat split; auto.
Qed.
Lemma exec3 b n s k st tau j0 j1 j2 u0 u1 u2 o a0 a1 a2 :
  res3 b n = Some (s, k, st, tau, [j0; j1; j2], [u0; u1; u2], o, [a0; a1; a2]) ->
  exists r, ccg (rcfg_of pts3 b) n = Ok r /\ x_success r = s /\ x_nit r = k /\ x_str r = st /\
    x_tau r = Q2R tau /\ x_jac r A3 = Q2R j0 /\ x_jac r B3 = Q2R j1 /\ x_jac r C3 = Q2R j2 /\
    x_x r A3 = Q2R u0 /\ x_x r B3 = Q2R u1 /\ x_x r C3 = Q2R u2 /\ x_offset r = Q2R o /\
    x_active r A3 = a0 /\ x_active r B3 = a1 /\ x_active r C3 = a2.
Proof.
  unfold res3. intros H. destruct (run _ _ _) as [r|] eqn:E; [|discriminate].
  exists (map_result Q2R r). split; [apply (ccg_exec eqb3 eqb3_eq); auto|].
  unfold obs in H. injection H as H1 H2 H3 H4 H5 H6 H7 H8 H9 H10 H11 H12 H13 H14. red_eqs.
  unfold map_result; cbn; unfold lift. repeat split; auto.
Qed.

Local Open Scope R_scope.
Ltac q2r := repeat match goal with |- context [Q2R ?q] =>
  let v := eval vm_compute in (Qnum q) in let d := eval vm_compute in (Qden q) in
  change (Q2R q) with (IZR v * / IZR (Zpos d)) end.
Ltac q2r_in H := repeat match type of H with context [Q2R ?q] =>
  let v := eval vm_compute in (Qnum q) in let d := eval vm_compute in (Qden q) in
  change (Q2R q) with (IZR v * / IZR (Zpos d)) in H end.

Lemma pos_def2 x y : x <> 0 \/ y <> 0 -> 0 < x * x + y * y + x * y.
Proof.
  intros H. assert (0 <= (x + y) * (x + y)) by apply Rle_0_sqr.
  assert (Hx : 0 <= x * x) by apply Rle_0_sqr. assert (Hy : 0 <= y * y) by apply Rle_0_sqr.
  destruct H as [H|H]; apply Rsqr_pos_lt in H; unfold Rsqr in H; lra.
Qed.

Lemma E1_run : exists r, ccg E1c 5 = Ok r /\ x_success r = true /\ x_str r = Cg /\ x_nit r = 2%nat /\
  x_tau r = 1 /\ x_jac r false = 1 /\ x_jac r true = 0 /\ x_active r false = true /\ x_active r true = false.
Proof.
  destruct (exec2 E1 5 true 2 Cg 1 1 0 1 (1#2) 0 true false) as (r&H&H1&H2&H3&H4&H5&H6&H7&H8&H9&H10&H11).
  { vm_compute. reflexivity. }
  exists r. rewrite H1, H2, H3, H4, H5, H6, H10, H11. repeat split; auto; q2r; lra.
Qed.
Lemma E1_elastic : elastic E1c. Proof. reflexivity. Qed.
Lemma E1_offset : offset_control E1c. Proof. reflexivity. Qed.
Lemma E1_linear : linear (c_disp E1c). Proof. apply rmatvec_linear. Qed.
Lemma E1_compliant : compliant (grid E1c) (c_disp E1c).
Proof.
  intros f [p [_ Hp]]. unfold lsum, grid, E1c, rcfg_of, rmatvec, E1, q_C, m2; simpl. q2r.
  assert (H : f false <> 0 \/ f true <> 0) by (destruct p; auto).
  apply pos_def2 in H. lra.
Qed.
Lemma E1_self_adjoint : self_adjoint (grid E1c) (c_disp E1c).
Proof.
  intros f g. unfold lsum, grid, E1c, rcfg_of, rmatvec, E1, q_C, m2; simpl. q2r. lra.
Qed.
Lemma E1_covers : covers E1c. Proof. intros []; simpl; auto. Qed.
Lemma E1_tol : tolerances_positive E1c. Proof. unfold tolerances_positive; simpl. q2r. lra. Qed.
Lemma E1_exact : exact_solution E1c (c_offset E1c) (fun p => if p then 0 else 1).
Proof.
  unfold exact_solution, on_surface, E1c, rcfg_of, rmatvec, E1, q_C, m2, lift, v2; simpl. split.
  - intros p _ H. exfalso. apply H. auto.
  - intros p _ _. destruct p; q2r; lra.
Qed.

Lemma E2_run : exists r, ccg E2c 9 = Ok r /\ x_success r = true /\ x_str r = Mix /\ x_jac r A3 = 1629/1000 /\
  x_jac r B3 = 0 /\ x_jac r C3 = 0.
Proof.
  destruct (exec3 E2 9 true 2 Mix 0 (1629#1000) 0 0 (1629#1000) (1629#2000) (1629#4000) (1#2) false false false)
    as (r&H&H1&H2&H3&H4&H5&H6&H7&_).
  { vm_compute. reflexivity. }
  exists r. rewrite H1, H3, H5, H6, H7. repeat split; auto; q2r; lra.
Qed.
Lemma E3_run : exists r, ccg E3c 9 = Ok r /\ x_success r = true /\ x_str r = Cg /\ x_jac r false = 7/4 /\
  x_jac r true = 5/4 /\ x_offset r = 11/8.
Proof.
  destruct (exec2 E3 9 true 3 Cg 0 (7#4) (5#4) (19#8) (17#8) (11#8) true true) as (r&H&H1&H2&H3&H4&H5&H6&H7&H8&H9&_).
  { vm_compute. reflexivity. }
  exists r. rewrite H1, H3, H5, H6, H9. repeat split; auto; q2r; lra.
Qed.
Lemma E4_run : exists r, ccg E4c 50 = Ok r /\ x_success r = true /\ x_str r = Mix /\ x_nit r = 2%nat /\ x_jac r false = 1/10 /\
  x_jac r true = 1/10.
Proof.
  destruct (exec2 E4 50 true 2 Mix 0 (1#10) (1#10) (3#20) (3#20) 1 true true) as (r&H&H1&H2&H3&H4&H5&H6&H7&H8&H9&_).
  { vm_compute. reflexivity. }
  exists r. rewrite H1, H2, H3, H5, H6. repeat split; auto; q2r; lra.
Qed.

(** Counterexamples. *)
Lemma W5_run : exists r, ccg W5c 9 = Ok r /\ x_success r = true /\ x_jac r C3 = 0 /\ gap W5c r C3 = - (25/16).
Proof.
  destruct (exec3 W5 9 true 3 Sd 0 0 (13#4) 0 (39#16) (13#4) (39#16) 2 false true false)
    as (r&H&H1&H2&H3&H4&H5&H6&H7&H8&H9&H10&H11&_).
  { vm_compute. reflexivity. }
  exists r. unfold gap. rewrite H1, H7, H10, H11. repeat split; auto; [q2r; lra|].
  unfold W5c, rcfg_of, W5, lift, v3; simpl. q2r. lra.
Qed.
Lemma W5f_run : exists r, ccg W5fc 9 = Ok r /\ x_success r = true /\ x_jac r false = 3 /\ x_jac r true = 0 /\
  gap W5fc r true = - 1.
Proof.
  destruct (exec2 W5f 9 true 3 Sd 0 3 0 3 (3#2) 2 true false) as (r&H&H1&H2&H3&H4&H5&H6&H7&H8&H9&_).
  { vm_compute. reflexivity. }
  exists r. unfold gap. rewrite H1, H5, H6, H8, H9. repeat split; auto; try (q2r; lra).
  unfold W5fc, rcfg_of, W5f, lift, v2; simpl. q2r. lra.
Qed.
Lemma W5f_exact : exact_solution W5fc (3/2) (fun p => if p then 1 else 2).
Proof.
  unfold exact_solution, on_surface, W5fc, rcfg_of, rmatvec, W5f, q_C, m2, lift, v2; simpl. split.
  - intros p _ H. exfalso. apply H. auto.
  - intros p _ _. destruct p; q2r; lra.
Qed.
Lemma W5f_compliant : compliant (grid W5fc) (c_disp W5fc).
Proof.
  intros f [p [_ Hp]]. unfold lsum, grid, W5fc, rcfg_of, rmatvec, W5f, q_C, m2; simpl. q2r.
  assert (H : f false <> 0 \/ f true <> 0) by (destruct p; auto).
  apply pos_def2 in H. lra.
Qed.
Lemma W6_run : exists r, ccg W6c 9 = Ok r /\ x_success r = true /\ x_jac r C3 < - (1/50).
Proof.
  destruct (exec_check eqb3 eqb3_eq pts3 W6 9 (fun r => x_success r && Qltb (x_jac r C3) (-1#50))) as (r&H&C).
  { vm_compute. reflexivity. }
  apply andb_true_iff in C. destruct C as [C1 C2]. exists (map_result Q2R r). split; auto. split; auto.
  apply Qltb_R in C2. change (x_jac (map_result Q2R r) C3) with (Q2R (x_jac r C3)).
  replace (Q2R (-1 # 50)) with (- (1/50)) in C2 by (unfold Q2R; simpl; lra). exact C2.
Qed.
Lemma W6_elastic : elastic W6c. Proof. reflexivity. Qed.
Lemma W15_run : exists r, ccg W15c 9 = Ok r /\ x_success r = true /\ c_hard W15c = Some (HScalar (1/4)) /\ 1/4 < x_jac r A3.
Proof.
  destruct (exec3 W15 9 true 2 Sd (4#5) (11#35) (1#4) (1#4) (29#56) (127#280) (127#280) (5#4) false true false)
    as (r&H&H1&H2&H3&H4&H5&_).
  { vm_compute. reflexivity. }
  exists r. rewrite H5. repeat split; auto. q2r. lra.
Qed.
Lemma W4_run : exists r, ccg W4c 9 = Ok r /\ x_success r = true /\ x_str r = Cg /\ x_jac r false = 5 /\
  x_tau r = 0 /\ gap W4c r false = 2 /\ c_pentol W4c * (1 + sqrt (INR (n_active W4c r))) = 1/500 /\ x_active r false = true /\ x_jac r true = 0.
Proof.
  destruct (exec2 W4 9 true 2 Cg 0 5 0 5 (15#4) 0 true false) as (r&H&H1&H2&H3&H4&H5&H6&H7&H8&H9&H10&H11).
  { vm_compute. reflexivity. }
  exists r. unfold gap, n_active, grid. rewrite H1, H3, H4, H5, H6, H7, H9. repeat split; auto; try (q2r; lra).
  - unfold W4c, rcfg_of, W4, lift, v2; simpl. q2r. lra.
  - unfold W4c; simpl. rewrite H10, H11. simpl. rewrite sqrt_1. q2r. lra.
Qed.
Lemma W4_elastic : elastic W4c. Proof. reflexivity. Qed.
Lemma W4_compliant : compliant (grid W4c) (c_disp W4c).
Proof.
  intros f [p [_ Hp]]. unfold lsum, grid, W4c, rcfg_of, rmatvec, W4, q_C, m2; simpl. q2r.
  assert (H : f false <> 0 \/ f true <> 0) by (destruct p; auto).
  assert (Hx : 0 <= f false * f false) by apply Rle_0_sqr. assert (Hy : 0 <= f true * f true) by apply Rle_0_sqr.
  assert (0 <= (f false + f true) * (f false + f true)) by apply Rle_0_sqr.
  destruct H as [H|H]; apply Rsqr_pos_lt in H; unfold Rsqr in H; lra.
Qed.
Lemma W4_self_adjoint : self_adjoint (grid W4c) (c_disp W4c).
Proof.
  intros f g. unfold lsum, grid, W4c, rcfg_of, rmatvec, W4, q_C, m2; simpl. q2r. lra.
Qed.
Lemma W4_exact : exact_solution W4c (c_offset W4c) (fun p => if p then 0 else 3).
Proof.
  unfold exact_solution, on_surface, W4c, rcfg_of, rmatvec, W4, q_C, m2, lift, v2; simpl. split.
  - intros p _ H. exfalso. apply H. auto.
  - intros p _ _. destruct p; q2r; lra.
Qed.
