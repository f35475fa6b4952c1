(** * C83 The elastic energy is the work of the load; energy and load depend continuously on the surface *)
From Coq Require Import Reals Lia Lra List Arith Bool String.
From Coquelicot Require Import Complex Coquelicot.
From Verif Require Import Py FFT_Base HalfSpace_Spec HalfSpace_Model HalfSpace_Results Systems_Model Systems_Spec Systems_Proofs Pipeline_Model Pipeline_Spec Pipeline_More
  Contact_Spec Contact_Model Contact_Proofs Contact_Results Contact_Results2 Contact_Results3 Contact_Load Prop_Pipeline Prop_Contact
  Signorini_Spec Signorini_Base Signorini_Periodic Prop_Signorini Work_Spec Work_Proofs.
From Verif Require CCG_Model CCG_Real CCG_Spec CCG_Proofs Prop_Solver.
From Coq Require Import List.
Import ListNotations.
Local Open Scope R_scope.

(** ** The contact problem *)

(** Pushing a surface into the half-space: the slope of the energy is the load,
    and the energy gained between two offsets is the area under the load curve. *)
Theorem C83_work : forall n m lx ly h (P U : R -> field), (2 <= n)%nat -> (2 <= m)%nat -> 0 < lx -> 0 < ly ->
  (forall delta, in_contact [n; m] lx ly h delta (P delta) (U delta)) ->
  let energy := fun delta => stored [n; m] (P delta) (U delta) in
  let load := fun delta => total [n; m] (P delta) in
  (forall delta, is_derive energy delta (load delta))
  /\ (forall a b, is_RInt load a b (energy b - energy a))
  /\ (forall a b t, 0 <= t <= 1 -> energy ((1 - t) * a + t * b) <= (1 - t) * energy a + t * energy b)
  /\ (forall delta, (forall x y, on_grid [n; m] x y -> h x y + delta <= 0) -> energy delta = 0).
Proof.
  intros n m lx ly h P U N M X Y F energy load.
  assert (B : forall a b, (b - a) * load a <= energy b - energy a <= (b - a) * load b)
    by exact (family_bracket n m lx ly N M X Y h P U F).
  split; [exact (family_derive n m lx ly N M X Y h P U F)|]. split; [exact (family_work n m lx ly N M X Y h P U F)|]. split.
  - intros a b t T. set (c := (1 - t) * a + t * b). destruct (B c a) as [Ba _]. destruct (B c b) as [Bb _].
    apply (Rmult_le_compat_l (1 - t)) in Ba; [|lra]. apply (Rmult_le_compat_l t) in Bb; [|lra].
    assert (Z : (1 - t) * ((a - c) * load c) + t * ((b - c) * load c) = 0) by (unfold c; ring). lra.
  - intros delta L. unfold energy. assert (E0 : 0 <= stored [n; m] (P delta) (U delta) <= 0); [|lra].
    assert (R0 : periodic_response [n; m] lx ly (fun _ _ => 0) (Comp n m lx ly (fun _ _ => 0))) by (apply Comp_response; assumption).
    assert (Z : stored [n; m] (fun _ _ => 0) (Comp n m lx ly (fun _ _ => 0)) = 0).
    { unfold stored. rewrite inner_R. rewrite (Rsum2_ext n m _ (fun _ _ => 0)) by (intros; ring). rewrite Rsum2_const. field. }
    split.
    + pose proof (distance_nonneg n m lx ly N M X Y (P delta) (U delta) _ _ (proj1 (F delta)) R0) as D.
      unfold distance in D. unfold stored. rewrite inner_R in *.
      rewrite (Rsum2_ext n m _ (fun x y => P delta x y * U delta x y)) in D; [lra|].
      intros x y Hx Hy. rewrite (Comp_zero n m lx ly N M x y Hx Hy). ring.
    + rewrite <- Z. apply (least_energy n m lx ly N M X Y h delta _ _ _ _ (F delta) R0). intros x y [Hx Hy]. unfold gap.
      rewrite (Comp_zero n m lx ly N M x y Hx Hy). specialize (L x y (conj Hx Hy)). lra.
Qed.
Print Assumptions C83_work.

(** Of all displacements that keep clear of the surface the half-space takes the
    one of least elastic energy, of all pressures without tension the one of
    least complementary energy. *)
Theorem C83_least : forall n m lx ly h delta p u q v, (2 <= n)%nat -> (2 <= m)%nat -> 0 < lx -> 0 < ly ->
  in_contact [n; m] lx ly h delta p u -> periodic_response [n; m] lx ly q v ->
  ((forall x y, on_grid [n; m] x y -> 0 <= gap h delta v x y) -> stored [n; m] p u <= stored [n; m] q v)
  /\ ((forall x y, on_grid [n; m] x y -> 0 <= q x y) ->
      complementary [n; m] h delta p u = - stored [n; m] p u
      /\ complementary [n; m] h delta p u <= complementary [n; m] h delta q v).
Proof.
  intros n m lx ly h delta p u q v N M X Y C R. split; intros V.
  - exact (least_energy n m lx ly N M X Y h delta p u q v C R V).
  - exact (least_complementary n m lx ly N M X Y h delta p u q v C R V).
Qed.
Print Assumptions C83_least.

(** Between any two surfaces: the energy difference lies between the works of the
    two pressures on the difference of the surfaces; a higher surface never
    stores less energy. *)
Theorem C83_surfaces : forall n m lx ly h delta p u h' delta' p' u', (2 <= n)%nat -> (2 <= m)%nat -> 0 < lx -> 0 < ly ->
  in_contact [n; m] lx ly h delta p u -> in_contact [n; m] lx ly h' delta' p' u' ->
  let rise := fun x y => (h' x y + delta') - (h x y + delta) in
  inner [n; m] p rise <= stored [n; m] p' u' - stored [n; m] p u <= inner [n; m] p' rise
  /\ distance [n; m] p u p' u' <= inner [n; m] p' rise - inner [n; m] p rise
  /\ ((forall x y, on_grid [n; m] x y -> 0 <= rise x y) -> stored [n; m] p u <= stored [n; m] p' u').
Proof.
  intros n m lx ly h delta p u h' delta' p' u' N M X Y C C' rise.
  pose proof (work_between n m lx ly N M X Y h delta h' delta' p u p' u' C C') as B. fold rise in B. split; [exact B|]. split.
  - unfold distance. rewrite !inner_R.
    replace (Rsum2 n m (fun x y => p' x y * rise x y) - Rsum2 n m (fun x y => p x y * rise x y))
      with (Rsum2 n m (fun x y => p' x y * rise x y) + -1 * Rsum2 n m (fun x y => p x y * rise x y)) by ring.
    rewrite <- Rsum2_scal, <- Rsum2_plus. apply Rsum2_le. intros x y Hx Hy.
    destruct (proj2 C x y (conj Hx Hy)) as (C1 & C2 & C3). destruct (proj2 C' x y (conj Hx Hy)) as (D1 & D2 & D3).
    set (G := gap h delta u x y) in *. set (G' := gap h' delta' u' x y) in *.
    replace (u x y - u' x y) with (G - G' - rise x y) by (unfold G, G', gap, rise; ring).
    assert (0 <= p x y * G') by (apply Rmult_le_pos; assumption). assert (0 <= p' x y * G) by (apply Rmult_le_pos; assumption). nra.
  - intros H. assert (0 <= inner [n; m] p rise); [|lra]. apply inner_nonneg. intros x y O.
    apply Rmult_le_pos; [apply (proj2 C x y O)|exact (H x y O)].
Qed.
Print Assumptions C83_surfaces.

(** Small changes of the surface change load and energy little. *)
Theorem C83_continuous : forall n m lx ly h delta p u h' delta' p' u' eps, (2 <= n)%nat -> (2 <= m)%nat -> 0 < lx -> 0 < ly ->
  in_contact [n; m] lx ly h delta p u -> in_contact [n; m] lx ly h' delta' p' u' ->
  0 <= eps -> (forall x y, on_grid [n; m] x y -> Rabs ((h' x y + delta') - (h x y + delta)) <= eps) ->
  Rabs (sqrt (mean [n; m] p') - sqrt (mean [n; m] p)) <= sqrt (uniform [n; m] lx ly * eps)
  /\ - (eps * total [n; m] p) <= stored [n; m] p' u' - stored [n; m] p u <= eps * total [n; m] p'
  /\ distance [n; m] p' u' p u <= eps * (total [n; m] p + total [n; m] p').
Proof.
  intros n m lx ly h delta p u h' delta' p' u' eps N M X Y C C' E B.
  pose proof (surface_near n m lx ly h delta h' delta' p' u' eps C' B) as V. split; [|split].
  - exact (load_error n m lx ly N M X Y h delta p' u' p u eps (proj1 C') C E V).
  - exact (near_energy n m lx ly N M X Y h delta p' u' p u eps (proj1 C') C E V).
  - pose proof (distance_exact n m lx ly h delta p' u' p u eps 0 C) as D.
    assert (D' : distance [n; m] p' u' p u <= inner [n; m] p' (gap h delta u') + 0 * total [n; m] (gap h delta u) + eps * total [n; m] p).
    { apply D. intros x y Hx Hy. destruct (V x y (conj Hx Hy)) as (V1 & V2 & _). lra. }
    pose proof (near_own n m h delta p' u' eps V). lra.
Qed.
Print Assumptions C83_continuous.

(** ** Computed states *)

(** Any two steps of a call of [contact_mechanics] whose maps meet the contact
    conditions up to [eps]: the energy gained lies between the work of the first
    and of the second load, and the load cannot drop noticeably. *)
Theorem C83_steps : forall o rms callback a calls r n m lx ly out out' h eps,
  contact_mechanics (ccg_solver o) rms callback a = (calls, r) ->
  substrate_name a = "periodic"%string ->
  sf_grid (cm_topography a) = [n; m] -> (2 <= n)%nat -> (2 <= m)%nat -> cm_sizes a = [lx; ly] -> 0 < lx -> 0 < ly ->
  0 <= sf_area (cm_topography a) -> In out calls -> In out' calls ->
  nearly_in_contact [n; m] h (out_offset out) (a_val (out_pressure out)) (a_val (out_disp out)) eps ->
  nearly_in_contact [n; m] h (out_offset out') (a_val (out_pressure out')) (a_val (out_disp out')) eps ->
  let load := fun s => total [n; m] (a_val (out_pressure s)) in
  let energy := fun s => stored [n; m] (a_val (out_pressure s)) (a_val (out_disp s)) in
  let d := out_offset out' - out_offset out in
  (d - 2 * eps) * load out <= energy out' - energy out <= (d + 2 * eps) * load out'.
Proof.
  intros o rms callback a calls r n m lx ly out out' h eps H NM G N M SZ X Y AR IN IN' V V' load energy d.
  destruct (C74_periodic _ _ _ _ _ _ _ _ _ _ H NM G SZ X Y AR out IN) as (_ & _ & PR).
  destruct (C74_periodic _ _ _ _ _ _ _ _ _ _ H NM G SZ X Y AR out' IN') as (_ & _ & PR').
  exact (near_bracket n m lx ly N M X Y h (out_offset out) (out_offset out') _ _ _ _ eps PR PR' V V').
Qed.
Print Assumptions C83_steps.

Lemma filter_true : forall A (f : A -> bool) l, (forall x, In x l -> f x = true) -> filter f l = l.
Proof.
  intros A f. induction l as [|a l IH]; intros H; [reflexivity|]. cbn. rewrite (H a) by (left; reflexivity).
  rewrite IH by (intros; apply H; right; assumption). reflexivity.
Qed.

(** The energy in the result object of a converged calculation (last iteration
    with status [cg] and a step) is that of the exact solution, up to the work of
    the loads on the tolerated penetration. *)
Lemma solver_state : forall o n m lx ly sb sf off pentol k r,
  0 < lx -> 0 < ly ->
  make_half_space "periodic" [n; m] [lx; ly] = Ret sb ->
  CCG_Spec.ccg (solver_cfg o sb sf None None off pentol) k = CCG_Model.Ok r ->
  let p := fun x y => a_val (o_jac (result_object sb r)) x y / sb_area sb in
  let u := a_val (o_x (result_object sb r)) in
  periodic_response [n; m] lx ly p u /\ CCG_Model.x_fun r = sb_area sb * stored [n; m] p u.
Proof.
  intros o n m lx ly sb sf off pentol k r X Y HS H p u.
  destruct (half_space_cases _ _ _ _ HS) as [(_ & hs & C0 & SB)|(Q & _)]; [|discriminate].
  pose proof (hs_area n m lx ly hs X Y C0) as AR. destruct (half_space_shapes _ _ _ _ HS) as (_ & CS & _ & _).
  assert (GS : sb_sub sb = [n; m]) by (rewrite SB; exact (hs_grid _ _ C0)).
  assert (PA : 0 < sb_area sb) by (rewrite SB; exact AR).
  split.
  - assert (SV : ccg_solver o sb sf None (mkSa (Some off) None pentol k) = Ret (result_object sb r)).
    { rewrite solver_eq by (rewrite (proj1 (half_space_shapes _ _ _ _ HS)); right; reflexivity).
      cbn [sa_offset sa_force sa_pentol sa_maxiter]. rewrite H. reflexivity. }
    assert (NN : nonneg None) by (intros ? ?; discriminate).
    destruct (solver_response _ _ _ _ _ _ NN SV) as (_ & _ & _ & U). fold u in U. rewrite U. unfold p.
    pose proof (hs_response n m lx ly hs X Y C0 (a_val (o_jac (result_object sb r)))) as PR.
    assert (W : forall g' ev (J : field), g' = [n; m] -> write g' 0 (respond g' ev (fun p => - J (px p) (py p)))
       = write [n; m] 0 (respond [n; m] ev (fun p => - J (px p) (py p)))) by (intros; subst; reflexivity).
    rewrite (W _ _ _ GS). replace (sb_area sb) with (area_per_pt (s_hs hs)) by (rewrite SB; reflexivity).
    replace (sb_disp sb) with (evaluate_disp hs) by (rewrite SB; reflexivity). exact PR.
  - set (c := solver_cfg o sb sf None None off pentol) in *.
    rewrite (proj2 (Prop_Solver.C01_self_consistent _ c k r I H)).
    assert (FT : filter (CCG_Model.c_slice c) (CCG_Spec.grid c) = CCG_Spec.grid c).
    { apply filter_true. intros z _. cbn. rewrite CS. apply inside_true.
      clear - GS. revert z. revert GS. generalize (sb_sub sb). intros g' -> z. exact (pt_inside [n; m] z). }
    rewrite FT. unfold c. rewrite cfg_grid, sum_points. unfold stored. rewrite inner_R.
    assert (GX : gx (sb_sub sb) = n) by (rewrite GS; reflexivity). assert (GY : gy (sb_sub sb) = m) by (rewrite GS; reflexivity).
    rewrite GX, GY.
    rewrite (Rsum2_ext n m (fun x y => p x y * u x y) (fun x y => / sb_area sb * write (sb_sub sb) 0 (fun z => CCG_Model.x_jac r z * CCG_Model.x_x r z) x y)).
    + rewrite Rsum2_scal. field. lra.
    + intros x y Hx Hy. unfold p, u. cbn [result_object o_jac o_x a_val].
      assert (HG : (x < gx (sb_sub sb))%nat /\ (y < gy (sb_sub sb))%nat) by (rewrite GS; split; assumption).
      rewrite !(write_in _ (sb_sub sb) _ _ x y HG). unfold Rdiv. ring.
Qed.
Theorem C83_solver : forall o n m lx ly sb sf off pentol k r ps us,
  (2 <= n)%nat -> (2 <= m)%nat -> 0 < lx -> 0 < ly -> 0 <= pentol ->
  make_half_space "periodic" [n; m] [lx; ly] = Ret sb ->
  CCG_Spec.ccg (solver_cfg o sb sf None None off pentol) k = CCG_Model.Ok r ->
  CCG_Model.x_success r = true -> CCG_Model.x_str r = CCG_Model.Cg ->
  CCG_Model.x_tau r <> 0 \/ CCG_Model.x_nit r = 1%nat ->
  in_contact [n; m] lx ly (a_val (heights sf)) off ps us ->
  let eps := pentol * (1 + sqrt (INR (n * m))) in
  let load := total [n; m] (a_val (o_jac (result_object sb r))) in
  - (eps * (sb_area sb * total [n; m] ps)) <= CCG_Model.x_fun r - sb_area sb * stored [n; m] ps us <= eps * load.
Proof.
  intros o n m lx ly sb sf off pentol k r ps us N M X Y PT HS H SU ST TA C eps load.
  destruct (C78_solver o n m lx ly sb sf off pentol k r ps us N M X Y PT HS H SU ST TA C) as [V _]. fold eps in V.
  destruct (solver_state o n m lx ly sb sf off pentol k r X Y HS H) as [PR FU].
  assert (EP : 0 <= eps).
  { apply Rmult_le_pos; [exact PT|]. pose proof (sqrt_pos (INR (n * m))). lra. }
  pose proof (near_energy n m lx ly N M X Y _ off _ _ ps us eps PR C EP V) as [L U]. rewrite FU.
  assert (PA : 0 < sb_area sb).
  { destruct (half_space_cases _ _ _ _ HS) as [(_ & hs & C0 & ->)|(Q & _)]; [|discriminate]. exact (hs_area n m lx ly hs X Y C0). }
  assert (LO : sb_area sb * total [n; m] (fun x y => a_val (o_jac (result_object sb r)) x y / sb_area sb) = load).
  { unfold load, total. rewrite <- Rsum2_scal. apply Rsum2_ext. intros. field. lra. }
  apply (Rmult_le_compat_l (sb_area sb)) in L; [|lra]. apply (Rmult_le_compat_l (sb_area sb)) in U; [|lra].
  rewrite <- LO. lra.
Qed.
Print Assumptions C83_solver.

(** ** Cases *)

(** For every surface there are the states of [C83_work]; here a wave, which
    stores energy at offset zero. *)
Example C83_nonvacuous :
  (exists P U : R -> field, (forall delta, in_contact [2; 2]%nat 1 1 wave_rows delta (P delta) (U delta))
     /\ total [2; 2]%nat (P 0) = PI /\ stored [2; 2]%nat (P 0) (U 0) = PI / 4 /\ stored [2; 2]%nat (P (-1)) (U (-1)) = 0)
  /\ (exists calls p ar d g c out out',
       contact_mechanics (ccg_solver usual) deviation silent (rows_at (1 / 2) (- 1 / 2) (Some [-1; 0]) None) = (calls, Ret (p, ar, d, g, c))
     /\ In out calls /\ In out' calls /\ out_offset out = -1 /\ out_offset out' = 0
     /\ nearly_in_contact [2; 2]%nat wave_rows (-1) (a_val (out_pressure out)) (a_val (out_disp out)) 0
     /\ nearly_in_contact [2; 2]%nat wave_rows 0 (a_val (out_pressure out')) (a_val (out_disp out')) 0
     /\ total [2; 2]%nat (a_val (out_pressure out')) = PI
     /\ stored [2; 2]%nat (a_val (out_pressure out')) (a_val (out_disp out')) = PI / 4).
Proof.
  pose proof half_contact as HC.
  assert (T0 : total [2; 2]%nat half_pressure = PI) by (unfold total, Rsum2, half_pressure; cbn; field).
  assert (S0 : stored [2; 2]%nat half_pressure half_disp = PI / 4)
    by (unfold stored, inner, total, Rsum2, half_pressure, half_disp; cbn; field).
  assert (L1 : forall x y, on_grid [2; 2]%nat x y -> wave_rows x y + -1 <= 0).
  { intros x y _. unfold wave_rows. cbn. destruct (Nat.eqb x 0); lra. }
  split.
  - destruct (contact_exists 2 2 1 1 (le_n 2) (le_n 2) Rlt_0_1 Rlt_0_1 wave_rows) as [P F].
    exists P, (fun d => Comp 2 2 1 1 (P d)). split; [exact F|].
    pose proof (contact_unique 2 2 1 1 (le_n 2) (le_n 2) Rlt_0_1 Rlt_0_1 wave_rows 0 _ _ _ _ (F 0) HC) as E.
    split; [|split].
    + rewrite <- T0. unfold total. apply Rsum2_ext. intros x y Hx Hy. apply (E x y Hx Hy).
    + rewrite <- S0. unfold stored, inner, total. f_equal. apply Rsum2_ext. intros x y Hx Hy. destruct (E x y Hx Hy) as [-> ->]. reflexivity.
    + apply (C83_work 2 2 1 1 wave_rows P (fun d => Comp 2 2 1 1 (P d)) (le_n 2) (le_n 2) Rlt_0_1 Rlt_0_1 F). exact L1.
  - destruct (rows_returns (1 / 2) (- 1 / 2) (Some [-1; 0]) None deviation eq_refl ltac:(cbn; lia)) as (calls & p & ar & d & g & c & H).
    assert (ZC : in_contact [2; 2]%nat 1 1 wave_rows (-1) (fun _ _ => 0) (fun _ _ => 0)).
    { split.
      - pose proof (Comp_response 2 2 1 1 (le_n 2) (le_n 2) Rlt_0_1 Rlt_0_1 (fun _ _ => 0)) as [R1 R2]. split.
        + intros k l Gk Z. specialize (R1 k l Gk Z). cbn [gx gy nth] in *.
          assert (EF : fft2 2 2 (fun _ _ => 0) k l = fft2 2 2 (Comp 2 2 1 1 (fun _ _ => 0)) k l); [|exact (eq_trans EF R1)].
          apply fft2_ext. intros x y Hx Hy. rewrite (Comp_zero 2 2 1 1 (le_n 2) (le_n 2) x y Hx Hy). reflexivity.
        + unfold mean, total. rewrite !Rsum2_const. unfold Rdiv. ring.
      - intros x y O. specialize (L1 x y O). unfold gap. lra. }
    destruct (C78_start usual deviation silent (rows_at (1 / 2) (- 1 / 2) (Some [-1; 0]) None) [-1; 0]
      (fun t => if Req_EM_T t 0 then half_pressure else fun _ _ => 0) (fun t => if Req_EM_T t 0 then half_disp else fun _ _ => 0)
      calls p ar d g c 2 2 1 1) as (PE & DE & CE & V); try reflexivity; try lra; try lia; try exact H; try (cbn; lra); try (cbn; lia).
    + intros x [<-|[<-|[]]].
      * destruct (Req_EM_T (-1) 0) as [Q|_]; [lra|]. split; [exact ZC|]. intros i j Hi Hj. cbn. rewrite Rmax_left; [reflexivity|].
        destruct (Nat.eqb i 0); lra.
      * destruct (Req_EM_T 0 0) as [_|Q]; [|lra]. split; [exact HC|]. intros i j Hi Hj. unfold half_disp. cbn.
        destruct (Nat.eqb i 0); [rewrite Rmax_right|rewrite Rmax_left]; lra.
    + assert (LC : List.length calls = 2%nat).
      { pose proof (elastic_steps _ _ _ _ _ _ _ _ _ _ _ _ _ _ (eq_refl : cm_nsteps (rows_at (1/2) (-1/2) (Some [-1; 0]) None) = None) eq_refl H eq_refl eq_refl) as Q.
        exact (proj1 Q). }
      destruct calls as [|out [|out' [|? ?]]]; try discriminate LC.
      destruct (V 0%nat out (-1) eq_refl eq_refl) as [O1 V1]. destruct (V 1%nat out' 0 eq_refl eq_refl) as [O2 V2].
      destruct (Req_EM_T (-1) 0) as [Q|_]; [lra|]. destruct (Req_EM_T 0 0) as [_|Q]; [|lra].
      exists [out; out'], p, ar, d, g, c, out, out'. split; [exact H|]. split; [left; reflexivity|]. split; [right; left; reflexivity|].
      split; [exact O1|]. split; [exact O2|].
      assert (NE : forall hh dd q v q' v', in_contact [2; 2]%nat 1 1 hh dd q v ->
        (forall i j, (i < 2)%nat -> (j < 2)%nat -> q' i j = q i j /\ v' i j = v i j) -> nearly_in_contact [2; 2]%nat hh dd q' v' 0).
      { intros hh dd q v q' v' C E x y O. pose proof (exact_near 2 2 1 1 hh dd q v C x y O) as K. destruct O as [Hx Hy].
        destruct (E x y Hx Hy) as [-> EV]. unfold gap in *. rewrite EV. exact K. }
      split; [exact (NE _ _ _ _ _ _ ZC V1)|]. split; [exact (NE _ _ _ _ _ _ HC V2)|]. split.
      * rewrite <- T0. unfold total. apply Rsum2_ext. intros x y Hx Hy. apply (V2 x y Hx Hy).
      * rewrite <- S0. unfold stored, inner, total. f_equal. apply Rsum2_ext. intros x y Hx Hy. destruct (V2 x y Hx Hy) as [-> ->]. reflexivity.
Qed.
