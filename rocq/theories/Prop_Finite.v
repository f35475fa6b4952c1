(** * C79 Once the contact area no longer changes, the solver needs at most one iteration per contact point *)
From Coq Require Import Reals Lia Lra List Arith Bool String QArith Qreals FunctionalExtensionality.
From Coquelicot Require Import Complex.
From Verif Require Import Py FFT_Base HalfSpace_Spec HalfSpace_Model HalfSpace_Proofs HalfSpace_Results HalfSpace_Results2 Systems_Model Systems_Spec Systems_Proofs Pipeline_Model Pipeline_Spec Pipeline_More
  Contact_Spec Contact_Model Contact_Proofs Contact_Results Contact_Results2 Signorini_Spec Signorini_Periodic Prop_Signorini Prop_Contact.
From Verif Require CCG_Model CCG_Real CCG_Spec CCG_Results2 CCG_Hom CCG_Q CCG_Witness CCG_FiniteRun.
From Coq Require Import List.
Import ListNotations.
Local Open Scope R_scope.

(** ** The solver *)
Section Abstract.
  Import CCG_Model CCG_Real CCG_Spec CCG_FiniteRun.

(** After the first iteration a status other than "cg" and no tension are enough
    for a fresh start. *)
Theorem C79_restart : forall P (c : @cfg R P) k s, elastic c -> (1 <= k)%nat ->
  after c k = Ok s -> s_str s <> Cg -> (forall p, s_f s p <= 0) -> restarted c k.
Proof. intros P c k s El. exact (restart_later c El k s). Qed.
Print Assumptions C79_restart.

(** The gaps of different iterates are orthogonal on the contact area. *)
Theorem C79_orthogonal : forall P (c : @cfg R P) k m C i j si sj,
  elastic c -> offset_control c -> covers c ->
  linear (c_disp c) -> self_adjoint (grid c) (c_disp c) -> compliant (grid c) (c_disp c) ->
  restarted c k -> settled c k m C -> (i < j)%nat -> (j <= m)%nat ->
  after c (k + i) = Ok si -> after c (k + j) = Ok sj ->
  lsum (filter C (grid c)) (fun p => iterate_gap c si p * iterate_gap c sj p) = 0.
Proof.
  intros P c k m C i j si sj El He Cov Li Sa Co Hr Hs. exact (settled_orthogonal c El He Li Sa Co Cov C k m Hr Hs i j si sj).
Qed.
Print Assumptions C79_orthogonal.

(** The complementary energy never grows on the way. *)
Theorem C79_energy : forall P (c : @cfg R P) k m C i j si sj,
  elastic c -> offset_control c ->
  linear (c_disp c) -> self_adjoint (grid c) (c_disp c) -> compliant (grid c) (c_disp c) ->
  restarted c k -> settled c k m C -> (i <= j)%nat -> (j <= m)%nat ->
  after c (k + i) = Ok si -> after c (k + j) = Ok sj ->
  complementary_energy c (c_offset c) (s_f sj) <= complementary_energy c (c_offset c) (s_f si).
Proof.
  intros P c k m C i j si sj El He Li Sa Co Hr Hs. exact (settled_energy c El He Li Sa Co C k m Hr Hs i j si sj).
Qed.
Print Assumptions C79_energy.

(** After as many iterations as there are contact points the gap on the contact
    area is closed, whatever the tolerances. *)
Theorem C79_closed : forall P (c : @cfg R P) k C s p,
  elastic c -> offset_control c -> covers c ->
  linear (c_disp c) -> self_adjoint (grid c) (c_disp c) -> compliant (grid c) (c_disp c) ->
  let N := List.length (filter C (grid c)) in
  restarted c k -> settled c k N C ->
  after c (k + N) = Ok s -> C p = true -> iterate_gap c s p = 0.
Proof.
  intros P c k C s p El He Cov Li Sa Co N Hr Hs. exact (settled_reaches c El He Li Sa Co Cov C k N Hr Hs s p (le_n N)).
Qed.
Print Assumptions C79_closed.

(** With one more iteration that finds no penetrating point, that iterate is the
    exact solution of the contact problem... *)
Theorem C79_exact : forall P (c : @cfg R P) k C s,
  elastic c -> offset_control c -> covers c ->
  linear (c_disp c) -> self_adjoint (grid c) (c_disp c) -> compliant (grid c) (c_disp c) ->
  let N := List.length (filter C (grid c)) in
  restarted c k -> settled c k (S N) C ->
  after c (k + N) = Ok s -> exact_solution c (c_offset c) (fun p => - s_f s p).
Proof.
  intros P c k C s El He Cov Li Sa Co N Hr Hs. exact (settled_exact c El He Li Sa Co Cov C k (S N) Hr Hs s (Nat.lt_succ_diag_r N)).
Qed.
Print Assumptions C79_exact.

(** ... and the call returns success by then. *)
Theorem C79_stops : forall P (c : @cfg R P) k C n,
  elastic c -> offset_control c -> covers c -> tolerances_positive c ->
  linear (c_disp c) -> self_adjoint (grid c) (c_disp c) -> compliant (grid c) (c_disp c) ->
  let N := List.length (filter C (grid c)) in
  restarted c k -> settled c k (S N) C -> (exists p, C p = true) -> (k + N < n)%nat ->
  exists r, ccg c n = Ok r /\ x_success r = true /\ (x_nit r <= S (k + N))%nat.
Proof.
  intros P c k C n El He Cov Tol Li Sa Co N Hr Hs Hne Hn.
  exact (settled_stops c El He Li Sa Co Cov C k (S N) Hr Hs n Tol Hne (Nat.lt_succ_diag_r N) Hn).
Qed.
Print Assumptions C79_stops.
End Abstract.

(** ** The periodic half-space *)
Lemma respond_selfadjoint : forall g ev k G, multiplier g ev k G ->
  CCG_Spec.self_adjoint (points g) (respond g ev).
Proof.
  intros g ev k G (P1 & P2 & HG & HR & E) f f'. rewrite !sum_points.
  assert (A : forall a b, Rsum2 (gx g) (gy g) (write g 0 (fun p => a p * respond g ev b p))
     = k * dot (gx g) (gy g) (write g 0 a) (mult (gx g) (gy g) G (write g 0 b))).
  { intros a b. unfold dot. rewrite <- Rsum2_scal. apply Rsum2_ext. intros x y Hx Hy.
    rewrite !(write_in _ _ _ _ _ _ (conj Hx Hy)).
    rewrite (respond_mult g ev k G (conj P1 (conj P2 (conj HG (conj HR E))))). cbn. ring. }
  rewrite !A. f_equal. apply mult_adjoint; try assumption. intros; apply HR.
Qed.

(** From the solver's exact solution to the contact problem on the half-space. *)
Lemma exact_contact : forall o n m lx ly sb sf fo off off' pentol s,
  0 < lx -> 0 < ly -> make_half_space "periodic" [n; m] [lx; ly] = Ret sb ->
  let c := solver_cfg o sb sf None fo off pentol in
  CCG_Spec.exact_solution c off' (fun p => - CCG_Model.s_f s p) ->
  CCG_Model.s_u s = CCG_Model.c_disp c (CCG_Model.s_f s) ->
  in_contact [n; m] lx ly (a_val (heights sf)) off'
    (fun x y => write (sb_sub sb) 0 (fun z => - CCG_Model.s_f s z) x y / sb_area sb)
    (write (sb_sub sb) 0 (CCG_Model.s_u s)).
Proof.
  intros o n m lx ly sb sf fo off off' pentol s X Y HS c [_ EX] SU.
  destruct (half_space_cases _ _ _ _ HS) as [(_ & hs & C0 & SB)|(Q & _)]; [|discriminate].
  pose proof (hs_area n m lx ly hs X Y C0) as AR. destruct (half_space_shapes _ _ _ _ HS) as (_ & CS & _ & _).
  assert (GS : sb_sub sb = [n; m]) by (rewrite SB; exact (hs_grid _ _ C0)).
  assert (COV : CCG_Spec.covers c) by apply cfg_covers.
  assert (IN : forall z : pt (sb_sub sb), (px z < n)%nat /\ (py z < m)%nat).
  { clear - GS. revert GS. generalize (sb_sub sb). intros g' -> z. exact (pt_inside [n; m] z). }
  assert (OS : forall z, CCG_Spec.on_surface c z).
  { intros z. apply cfg_surface. rewrite CS. apply inside_true. exact (IN z). }
    assert (EE : (fun p => - - CCG_Model.s_f s p) = CCG_Model.s_f s) by (apply functional_extensionality; intros; ring).
    rewrite EE in EX. split.
    + rewrite SU. pose proof (hs_response n m lx ly hs X Y C0 (write (sb_sub sb) 0 (fun z => - CCG_Model.s_f s z))) as PR.
      assert (W : forall g' (f : pt g' -> R), g' = [n; m] ->
         write [n; m] 0 (respond [n; m] (evaluate_disp hs) (fun p => - write g' 0 (fun z => - f z) (px p) (py p)))
         = write g' 0 (respond g' (evaluate_disp hs) f)).
      { intros g' f ->. f_equal. f_equal. apply functional_extensionality. intros p. rewrite write_at. ring. }
      rewrite (W _ _ GS) in PR.
      replace (sb_area sb) with (area_per_pt (s_hs hs)) by (rewrite SB; reflexivity).
      change (CCG_Model.c_disp c) with (respond (sb_sub sb) (sb_disp sb)).
      replace (sb_disp sb) with (evaluate_disp hs) by (rewrite SB; reflexivity). exact PR.
    + assert (PA : 0 < sb_area sb) by (rewrite SB; exact AR).
      intros x y HG. assert (HG' : (x < gx (sb_sub sb))%nat /\ (y < gy (sb_sub sb))%nat) by (rewrite GS; exact HG).
      unfold gap. rewrite !(write_in _ _ _ _ _ _ HG'). set (z := at_pt (sb_sub sb) x y HG').
      destruct (EX z (COV z) (OS z)) as (E1 & E2 & E3). rewrite <- SU in E2, E3.
      change (CCG_Model.c_h c z) with (a_val (heights sf) x y) in E2, E3.
      split; [apply Rmult_le_pos; [exact E1|left; apply Rinv_0_lt_compat; exact PA]|]. split; [exact E2|].
      unfold Rdiv. rewrite (Rmult_comm (- CCG_Model.s_f s z)), Rmult_assoc, E3. ring.
Qed.

Theorem C79_half_space : forall o n m lx ly sb sf off pentol k C,
  (2 <= n)%nat -> (2 <= m)%nat -> 0 < lx -> 0 < ly ->
  0 < pentol -> 0 < op_forcetol o -> 0 < op_thermotol o ->
  make_half_space "periodic" [n; m] [lx; ly] = Ret sb ->
  let c := solver_cfg o sb sf None None off pentol in
  let N := List.length (filter C (CCG_Spec.grid c)) in
  CCG_FiniteRun.restarted c k -> CCG_FiniteRun.settled c k (S N) C -> (exists z, C z = true) ->
  (exists s, CCG_Spec.after c (k + N) = CCG_Model.Ok s /\
    in_contact [n; m] lx ly (a_val (heights sf)) off
      (fun x y => write (sb_sub sb) 0 (fun z => - CCG_Model.s_f s z) x y / sb_area sb)
      (write (sb_sub sb) 0 (CCG_Model.s_u s)))
  /\ forall maxiter, (k + N < maxiter)%nat -> exists r, CCG_Spec.ccg c maxiter = CCG_Model.Ok r
       /\ CCG_Model.x_success r = true /\ (CCG_Model.x_nit r <= S (k + N))%nat.
Proof.
  intros o n m lx ly sb sf off pentol k C N2 M2 X Y PT FT TT HS c N Hr Hs Hne.
  destruct (half_space_cases _ _ _ _ HS) as [(_ & hs & C0 & SB)|(Q & _)]; [|discriminate].
  pose proof (hs_area n m lx ly hs X Y C0) as AR. destruct (half_space_shapes _ _ _ _ HS) as (_ & CS & _ & _).
  assert (GS : sb_sub sb = [n; m]) by (rewrite SB; exact (hs_grid _ _ C0)).
  assert (MU : multiplier (sb_sub sb) (sb_disp sb) (- / area_per_pt (s_hs hs)) (GF hs)).
  { rewrite GS, SB. exact (disp_multiplier _ _ C0). }
  assert (LI : CCG_Spec.linear (CCG_Model.c_disp c)) by exact (respond_linear _ _ _ _ MU).
  assert (SA : CCG_Spec.self_adjoint (CCG_Spec.grid c) (CCG_Model.c_disp c)).
  { unfold c. rewrite cfg_grid. exact (respond_selfadjoint _ _ _ _ MU). }
  assert (CO : CCG_Spec.compliant (CCG_Spec.grid c) (CCG_Model.c_disp c)).
  { unfold c. rewrite cfg_grid. cbn [solver_cfg CCG_Model.c_disp]. rewrite SB. apply (hs_compliant_sub n m lx ly); try assumption.
    rewrite <- GS, SB. reflexivity. }
  assert (COV : CCG_Spec.covers c) by apply cfg_covers.
  assert (IN : forall z : pt (sb_sub sb), (px z < n)%nat /\ (py z < m)%nat).
  { clear - GS. revert GS. generalize (sb_sub sb). intros g' -> z. exact (pt_inside [n; m] z). }
  assert (OS : forall z, CCG_Spec.on_surface c z).
  { intros z. apply cfg_surface. rewrite CS. apply inside_true. exact (IN z). }
  split.
  - destruct (Hs N (Nat.le_succ_diag_r N)) as (s & Ha & _). exists s. split; [exact Ha|].
    pose proof (C79_exact _ c k C s eq_refl eq_refl COV LI SA CO Hr Hs Ha) as EX.
    assert (SU : CCG_Model.s_u s = CCG_Model.c_disp c (CCG_Model.s_f s)).
    { destruct (Nat.eq_dec (k + N) 0) as [Z|Z].
      - destruct Hr as (s0 & Ha0 & _ & _ & SU0). replace (k + N)%nat with k in Ha by lia. congruence.
      - apply (CCG_Results2.after_inv c (k + N) s I Ha). lia. }
    exact (exact_contact o n m lx ly sb sf None off off pentol s X Y HS EX SU).
  - intros maxiter HM.
    exact (C79_stops _ c k C maxiter eq_refl eq_refl COV (conj PT (conj FT TT)) LI SA CO Hr Hs Hne HM).
Qed.
Print Assumptions C79_half_space.

(** ** Examples *)
Section Example3.
  Import CCG_Model CCG_Real CCG_Spec CCG_Hom CCG_Q CCG_Witness CCG_FiniteRun.

(** Three points: the second penetrates in the first iteration and is added, the
    third never touches. *)
Definition F3 : @qprob p3 :=
  mkProb all none (m3 2 1 (1#2) 2 (1#2) 1) (m3 0 0 0 0 0 0) (v3 3 3 (-10)) None None 0
    (Some (v3 (-1) 0 0)) (1#1000) (1#1000) (1#1000).
Definition F3c : @cfg R p3 := rcfg_of pts3 F3.
Definition F3C (p : p3) : bool := match p with C3 => false | _ => true end.

Fixpoint qafter (k : nat) : result (@state Q p3) :=
  match k with
  | O => Ok (init_state (QOps eqb3 pts3) (qcfg pts3 F3))
  | S k => match qafter k with
           | Raise e => Raise e
           | Ok s => match iter (QOps eqb3 pts3) (qcfg pts3 F3) s with
                     | Raise e => Raise e
                     | Ok fu => Ok (fu_state fu)
                     end
           end
  end.
Lemma qafter_ok k : after F3c k = map_ok (map_state Q2R) (qafter k).
Proof.
  pose proof (QR_hom eqb3 eqb3_eq pts3) as H. pose proof (cfg_of_hom pts3 F3) as C.
  induction k as [|k IH]; cbn [after qafter].
  - cbn [map_ok]. f_equal. exact (init_hom _ _ Q2R H _ _ C).
  - rewrite IH. destruct (qafter k) as [s|]; [|reflexivity]. cbn [map_ok].
    unfold F3c. rewrite (iter_hom _ _ Q2R H _ _ C). destruct (iter _ _ s) as [fu|]; reflexivity.
Qed.
(** Status and forces of the first four iterates. *)
Definition look (k : nat) : option (status * list Q) :=
  match qafter k with Ok s => Some (s_str s, map (fun p => Qred (s_f s p)) pts3) | Raise _ => None end.
Lemma look_after k st a b d : look k = Some (st, [a; b; d]) ->
  exists s, after F3c k = Ok s /\ s_str s = st /\ s_f s A3 = Q2R a /\ s_f s B3 = Q2R b /\ s_f s C3 = Q2R d.
Proof.
  unfold look. rewrite qafter_ok. destruct (qafter k) as [s|]; [|discriminate]. intros H.
  injection H as H1 H2 H3 H4. red_eqs. exists (map_state Q2R s). cbn. unfold lift. repeat split; auto.
Qed.
Lemma F3_iterates :
  look 1 = Some (Sd, [(-3#2); (-1); 0])%Q /\ look 2 = Some (Cg, [(-8#7); (-23#28); 0])%Q
  /\ look 3 = Some (Cg, [(-1); (-1); 0])%Q /\ look 4 = Some (Cg, [(-1); (-1); 0])%Q.
Proof. vm_compute. repeat split. Qed.
Lemma F3_restarted : restarted F3c 1.
Proof.
  destruct (look_after _ _ _ _ _ (proj1 F3_iterates)) as (s & Ha & Hs & Fa & Fb & Fd).
  apply (C79_restart _ F3c 1 s eq_refl); [lia|exact Ha|congruence|]. intros []; rewrite ?Fa, ?Fb, ?Fd; q2r; lra.
Qed.
Lemma F3_settled : settled F3c 1 3 F3C.
Proof.
  destruct F3_iterates as (I1 & I2 & I3 & I4). intros i Hi.
  assert (K : forall k st a b d, look k = Some (st, [a; b; d]) -> Q2R a < 0 -> Q2R b < 0 -> Q2R d = 0 -> (k = 1%nat \/ st = Cg) ->
    exists s, after F3c k = Ok s /\ (forall p, s_f s p < 0 <-> F3C p = true) /\ ((1 <= k - 1)%nat -> s_str s = Cg)).
  { intros k st a b d L A B D E. destruct (look_after _ _ _ _ _ L) as (s & Ha & Hs & Fa & Fb & Fd). exists s.
    split; [exact Ha|]. split.
    - intros []; cbn [F3C]; rewrite ?Fa, ?Fb, ?Fd; split; intros; try lra; try reflexivity; discriminate.
    - intros L1. destruct E as [-> |E]; [lia|congruence]. }
  replace i with (1 + i - 1)%nat at 2 by lia.
  destruct i as [|[|[|[|?]]]]; [| | | |lia]; cbn [Nat.add].
  - apply (K _ _ _ _ _ I1); try (q2r; lra). auto.
  - apply (K _ _ _ _ _ I2); try (q2r; lra). auto.
  - apply (K _ _ _ _ _ I3); try (q2r; lra). auto.
  - apply (K _ _ _ _ _ I4); try (q2r; lra). auto.
Qed.
Example C79_nonvacuous :
  elastic F3c /\ offset_control F3c /\ covers F3c /\ tolerances_positive F3c
  /\ linear (c_disp F3c) /\ self_adjoint (grid F3c) (c_disp F3c) /\ compliant (grid F3c) (c_disp F3c)
  /\ List.length (filter F3C (grid F3c)) = 2%nat /\ restarted F3c 1 /\ settled F3c 1 3 F3C
  /\ (exists s, after F3c 2 = Ok s /\ iterate_gap F3c s A3 = 3 / 28)
  /\ exists r, ccg F3c 9 = Ok r /\ x_success r = true /\ (x_nit r <= 4)%nat.
Proof.
  assert (Cov : covers F3c) by (intros []; cbn; auto).
  assert (Tol : tolerances_positive F3c) by (unfold tolerances_positive; cbn; q2r; lra).
  assert (Li : linear (c_disp F3c)) by apply rmatvec_linear.
  assert (Sa : self_adjoint (grid F3c) (c_disp F3c)).
  { intros f g. unfold lsum, grid, F3c, rcfg_of, rmatvec, F3, q_C, m3; simpl. q2r. lra. }
  assert (Co : compliant (grid F3c) (c_disp F3c)).
  { intros f [p [_ Hp]]. unfold lsum, grid, F3c, rcfg_of, rmatvec, F3, q_C, m3; simpl. q2r.
    set (x := f A3). set (y := f B3). set (z := f C3).
    assert (Hx := Rle_0_sqr x). assert (Hy := Rle_0_sqr y). assert (Hz := Rle_0_sqr z).
    assert (Hxy := Rle_0_sqr (x + y)). assert (Hxz := Rle_0_sqr (x + 5 / 8 * z)). assert (Hyz := Rle_0_sqr (y + 5 / 8 * z)).
    assert (0 < x * x \/ 0 < y * y \/ 0 < z * z).
    { destruct p; apply Rsqr_pos_lt in Hp; unfold Rsqr in Hp; auto. }
    unfold Rsqr in *. lra. }
  split; [reflexivity|]. split; [reflexivity|]. do 5 (split; [assumption|]). split; [reflexivity|]. split; [exact F3_restarted|]. split; [exact F3_settled|]. split.
  - destruct (look_after _ _ _ _ _ (proj1 (proj2 F3_iterates))) as (s & Ha & Hs & Fa & Fb & Fd).
    exists s. split; [exact Ha|]. unfold iterate_gap.
    destruct (CCG_Results2.after_inv F3c 2 s I Ha ltac:(lia)) as [_ ->].
    unfold F3c, rcfg_of, rmatvec, F3, q_C, m3, lift, v3; simpl. rewrite Fa, Fb, Fd. q2r. lra.
  - apply (C79_stops _ F3c 1 F3C 9 eq_refl eq_refl Cov Tol Li Sa Co F3_restarted F3_settled); [exists A3; reflexivity|cbn; lia].
Qed.
End Example3.

(** A wave of amplitude 1/2 on the half-space, half of it in contact: the start is
    the solution and the area stays. *)
Example C79_half_space_nonvacuous : exists sb C,
  make_half_space "periodic" [2; 2]%nat [1; 1] = Ret sb
  /\ (forall z, C z = Nat.eqb (px z) 0)
  /\ let c := solver_cfg usual sb (rows (1 / 2) (- 1 / 2)) None None 0 (1 / 100) in
     CCG_FiniteRun.restarted c 0 /\ (exists z, C z = true)
     /\ forall m, CCG_FiniteRun.settled c 0 m C.
Proof.
  destruct (half_space_ok "periodic" 2 2 1 1 (or_introl (conj eq_refl (conj (le_n 2) (le_n 2))))) as (sb & HS & _).
  destruct (half_space_cases _ _ _ _ HS) as [(_ & hs & CH & ->)|(Q & _)]; [|discriminate].
  pose proof (hs_area 2 2 1 1 hs Rlt_0_1 Rlt_0_1 CH) as PA.
  destruct (start_exact usual [2; 2]%nat [1; 1] hs (rows (1 / 2) (- 1 / 2)) 0 (1 / 100) half_pressure half_disp
    CH (positive_two _ _ Rlt_0_1 Rlt_0_1) eq_refl (proj1 half_contact)) as (EX & I1 & I2 & _).
  { intros i j Q. destruct half_contact as [_ HC]. destruct (HC i j Q) as (C1 & _ & C3). split; [|split; [exact C1|exact C3]].
    unfold half_disp. cbn. destruct (Nat.eqb i 0); [rewrite Rmax_right|rewrite Rmax_left]; lra. }
  set (c := solver_cfg usual (periodic hs) (rows (1 / 2) (- 1 / 2)) None None 0 (1 / 100)) in *.
  set (q := fun z : pt (sb_sub (periodic hs)) => area_per_pt (s_hs hs) * half_pressure (px z) (py z)) in *.
  assert (GS : sb_sub (periodic hs) = [2; 2]%nat) by exact (hs_grid _ _ CH).
  assert (QC : forall z, CCG_Real.Rltb 0 (q z) = Nat.eqb (px z) 0).
  { intros z. unfold q, half_pressure. pose proof PI_RGT_0. destruct (Nat.eqb (px z) 0).
    - apply CCG_Real.Rltb_true. apply Rmult_lt_0_compat; lra.
    - apply CCG_Real.Rltb_false. lra. }
  assert (Z : exists z : pt (sb_sub (periodic hs)), px z = 0%nat).
  { assert (HG : (0 < gx (sb_sub (periodic hs)))%nat /\ (0 < gy (sb_sub (periodic hs)))%nat) by (rewrite GS; cbn; lia).
    exists (at_pt _ 0 0 HG). reflexivity. }
  assert (A : forall m, CCG_FiniteRun.restarted c 0 /\ CCG_FiniteRun.settled c 0 m (fun z => CCG_Real.Rltb 0 (q z))).
  { intros m. apply CCG_FiniteRun.exact_settled; auto.
    - reflexivity.
    - reflexivity.
    - apply cfg_covers.
    - split; [cbn; lra|split; cbn; lra].
    - destruct Z as [z Z]. exists z. apply CCG_Real.Rltb_true. rewrite QC, Z. reflexivity. }
  exists (periodic hs), (fun z => CCG_Real.Rltb 0 (q z)). split; [exact HS|]. split; [exact QC|]. split; [exact (proj1 (A 0%nat))|]. split.
  - destruct Z as [z Z]. exists z. rewrite QC, Z. reflexivity.
  - intros m. apply A.
Qed.
