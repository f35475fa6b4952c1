(** * What the solver returns on the half-spaces of the pipeline *)
From Coq Require Import Reals ZArith Lia Lra List Arith Bool String FunctionalExtensionality.
From Coquelicot Require Import Complex Coquelicot.
From Verif Require Import Py FFT_Base HalfSpace_Model HalfSpace_Spec HalfSpace_Proofs HalfSpace_Results
  HalfSpace_Results2 HalfSpace_Results3 HalfSpace_Witness Free_Model Free_Spec Free_Proofs Systems_Model Factory_Model
  Pipeline_Model Pipeline_Results Prop_Free Contact_Model Contact_Spec Contact_Proofs.
From Verif Require CCG_Model CCG_Real CCG_Spec CCG_Proofs CCG_Results CCG_Results2.
From Coq Require Import List.
Import ListNotations.
Local Open Scope R_scope.

(** ** The half-space *)
Definition periodic_args (g : list nat) (sizes : list R) : args := mkArgs g 1 sizes None None 0 None.
Definition free_args (g : list nat) (sizes : list R) : fargs := mkFargs g 1 sizes None false.

Lemma half_space_cases : forall name g sizes sb, make_half_space name g sizes = Ret sb ->
  (name = "periodic"%string /\ exists s, construct (periodic_args g sizes) = Ret s /\ sb = periodic s)
  \/ (name = "nonperiodic"%string /\ exists s, free_construct (free_args g sizes) = Ret s /\ sb = free s).
Proof.
  intros name g sizes sb H. unfold make_half_space in H.
  destruct (String.eqb_spec name "periodic") as [->|_].
  - left. split; [reflexivity|]. unfold call_periodic, half_space_kwargs in H. cbn in H. fold (periodic_args g sizes) in H.
    destruct (construct _) as [s|e] eqn:C0; [|discriminate]. injection H as <-. eauto.
  - destruct (String.eqb_spec name "nonperiodic") as [->|_]; [|discriminate].
    right. split; [reflexivity|]. unfold call_free, half_space_kwargs in H. cbn in H. fold (free_args g sizes) in H.
    destruct (free_construct _) as [s|e] eqn:C0; [|discriminate]. injection H as <-. eauto.
Qed.

Definition positive_sizes (sizes : list R) : Prop := forall x, In x sizes -> 0 < x.

Lemma periodic_pos : forall g sizes, positive_sizes sizes -> pos_args (periodic_args g sizes).
Proof.
  intros g sizes H. unfold pos_args, periodic_args. cbn [a_sizes a_young a_poisson a_thick a_q0].
  repeat split; try lra; try (intros; discriminate). exact H.
Qed.

Lemma construct_sizes : forall a s, construct a = Ret s -> a_sizes a <> [].
Proof. intros a s H. destruct (construct_inv a s H) as [N _]. pose proof (new_inv _ _ N) as K. tauto. Qed.
Lemma free_sizes : forall a s, free_construct a = Ret s -> fa_sizes a <> [].
Proof.
  intros a s H. unfold free_construct in H. destruct (new_on _ (base_args a)) as [h|e] eqn:N; [|discriminate].
  destruct (new_on_inv _ _ _ N) as (_ & _ & _ & _ & _ & _ & h' & N' & _). pose proof (new_inv _ _ N') as K.
  cbn [base_args a_sizes] in K. tauto.
Qed.
Lemma cell_pos : forall sizes i, positive_sizes sizes -> sizes <> [] -> 0 < cell_size sizes i.
Proof. intros sizes i H N. apply H. unfold cell_size. apply nth_In_min. exact N. Qed.

Lemma half_space_shapes : forall name g sizes sb, make_half_space name g sizes = Ret sb ->
  sb_grid sb = g /\ comp_shape sb = g /\ List.length (sb_sub sb) = List.length g
  /\ (gx g <= gx (sb_sub sb))%nat /\ (gy g <= gy (sb_sub sb))%nat /\ (0 < gx g)%nat /\ (0 < gy g)%nat.
Proof.
  assert (Min : forall g : list nat, map (fun p => Nat.min (fst p) (snd p)) (combine g g) = g).
  { induction g as [|n g IH]; [reflexivity|]. cbn. rewrite IH, Nat.min_id. reflexivity. }
  assert (Min2 : forall g : list nat, map (fun p => Nat.min (fst p) (snd p)) (combine g (map (fun r => (2 * r)%nat) g)) = g).
  { induction g as [|n g IH]; [reflexivity|]. cbn [map combine fst snd]. rewrite IH. f_equal. lia. }
  intros name g sizes sb H. destruct (half_space_inv _ _ _ _ H) as (SG & NZ & L & _). split; [exact SG|].
  assert (P : (0 < gx g)%nat /\ (0 < gy g)%nat).
  { unfold gx, gy. destruct g as [|n [|m [|? ?]]]; cbn in L; destruct L; try discriminate; cbn; split; try lia;
      try (assert (n <> 0)%nat by (apply NZ; left; reflexivity); lia);
      try (assert (m <> 0)%nat by (apply NZ; right; left; reflexivity); lia). }
  unfold comp_shape. rewrite SG.
  destruct (half_space_cases _ _ _ _ H) as [(_ & s & C0 & ->)|(_ & s & C0 & ->)].
  - cbn [sb_grid sb_sub periodic] in *. rewrite SG, Min. destruct P. repeat split; auto.
  - destruct (free_inv _ _ C0) as (L2 & _ & D & _). cbn [fa_grid free_args] in *. cbn [sb_sub free] in *. rewrite D, Min2, map_length.
    split; [reflexivity|]. split; [reflexivity|]. unfold gx, gy.
    destruct g as [|n [|m [|? ?]]]; try discriminate. cbn [nth map]. unfold gx, gy in P. cbn in P. lia.
Qed.

(** ** The call of the solver *)
Lemma solver_eq : forall o sb sf hd a, (List.length (sb_grid sb) = 1 \/ List.length (sb_grid sb) = 2)%nat ->
  ccg_solver o sb sf hd a
  = match CCG_Spec.ccg (solver_cfg o sb sf hd (sa_force a) (match sa_offset a with Some x => x | None => 0 end) (sa_pentol a))
            (sa_maxiter a) with
    | CCG_Model.Ok r => Ret (result_object sb r)
    | CCG_Model.Raise e => Exc (exception e)
    end.
Proof.
  intros o sb sf hd a L. unfold ccg_solver, CCG_Model.solve, CCG_Model.solve_trace.
  cbn [CCG_Model.a_distributed CCG_Model.a_plain_array CCG_Model.choose_pentol CCG_Model.a_pentol andb CCG_Model.a_dim
       CCG_Model.a_offset CCG_Model.a_maxiter].
  destruct L as [-> | ->]; reflexivity.
Qed.

Lemma solver_inv : forall o sb sf hd a r, ccg_solver o sb sf hd a = Ret r ->
  exists r', CCG_Spec.ccg (solver_cfg o sb sf hd (sa_force a) (match sa_offset a with Some x => x | None => 0 end) (sa_pentol a))
               (sa_maxiter a) = CCG_Model.Ok r' /\ r = result_object sb r'.
Proof.
  intros o sb sf hd a r H.
  assert (L : (List.length (sb_grid sb) = 1 \/ List.length (sb_grid sb) = 2)%nat).
  { unfold ccg_solver, CCG_Model.solve, CCG_Model.solve_trace in H.
    cbn [CCG_Model.a_distributed CCG_Model.a_plain_array CCG_Model.choose_pentol CCG_Model.a_pentol andb CCG_Model.a_dim] in H.
    destruct (Nat.eqb_spec (List.length (sb_grid sb)) 1); [tauto|]. destruct (Nat.eqb_spec (List.length (sb_grid sb)) 2); [tauto|].
    cbn in H. discriminate. }
  rewrite solver_eq in H by exact L. destruct (CCG_Spec.ccg _ _) as [r'|e]; [|discriminate].
  injection H as <-. eauto.
Qed.

Lemma cfg_grid : forall o sb sf hd force off pt, CCG_Spec.grid (solver_cfg o sb sf hd force off pt) = points (sb_sub sb).
Proof. intros. unfold CCG_Spec.grid, solver_cfg. cbn [CCG_Model.c_ranks concat]. apply app_nil_r. Qed.
Lemma cfg_covers : forall o sb sf hd force off pt, CCG_Spec.covers (solver_cfg o sb sf hd force off pt).
Proof. intros. intros p. rewrite cfg_grid. apply points_all. Qed.
Lemma cfg_surface : forall o sb sf hd force off pt p,
  CCG_Spec.on_surface (solver_cfg o sb sf hd force off pt) p <-> inside (comp_shape sb) (px p, py p) = true.
Proof. intros. unfold CCG_Spec.on_surface, solver_cfg. cbn [CCG_Model.c_slice CCG_Model.c_masked]. tauto. Qed.
Definition nonneg (hd : option R) : Prop := forall h, hd = Some h -> 0 <= h.
Lemma cfg_hardness : forall o sb sf hd force off pt, nonneg hd ->
  CCG_Spec.hardness_nonneg (solver_cfg o sb sf hd force off pt).
Proof.
  intros o sb sf hd force off pt H. unfold CCG_Spec.hardness_nonneg, solver_cfg. cbn [CCG_Model.c_hard].
  destruct hd as [h|]; cbn [option_map]; [|exact Logic.I]. apply H. reflexivity.
Qed.

(** The forces of a result as an array over the computational grid. *)
Lemma solver_response : forall o sb sf hd a r, nonneg hd -> ccg_solver o sb sf hd a = Ret r ->
  a_shape (o_x r) = sb_sub sb /\ a_shape (o_jac r) = comp_shape sb
  /\ (forall x y, ~ on_grid (comp_shape sb) x y -> a_val (o_jac r) x y = 0)
  /\ a_val (o_x r) = write (sb_sub sb) 0 (respond (sb_sub sb) (sb_disp sb)
       (fun p => - a_val (o_jac r) (px p) (py p))).
Proof.
  intros o sb sf hd a r Hh H. destruct (solver_inv _ _ _ _ _ _ H) as (r' & E & ->).
  destruct (CCG_Proofs.result_consistent _ _ _ (cfg_hardness _ _ _ _ _ _ _ Hh) E) as (Z & X & _).
  cbn [result_object o_x o_jac a_shape a_val].
  assert (Q : forall p, CCG_Model.x_jac r' p = if inside (comp_shape sb) (px p, py p) then CCG_Model.x_jac r' p else 0).
  { intros p. destruct (inside (comp_shape sb) (px p, py p)) eqn:IP; [reflexivity|]. apply Z.
    rewrite cfg_surface. congruence. }
  split; [reflexivity|]. split; [reflexivity|]. split.
  - intros x y NG. unfold write. destruct (bool_dec _ _) as [K|K]; [|reflexivity]. rewrite Q.
    unfold px, py. cbn [proj1_sig fst snd]. destruct (inside (comp_shape sb) (x, y)) eqn:IP; [|reflexivity].
    apply inside_true in IP. contradiction.
  - f_equal. rewrite X. cbn [solver_cfg CCG_Model.c_disp CCG_Model.c_slice]. f_equal. funext.
    rewrite write_at, Q. destruct (inside _ _); lra.
Qed.

(** ** Periodic response *)
Lemma periodic_shape : forall g sizes s, construct (periodic_args g sizes) = Ret s -> sb_sub (periodic s) = g.
Proof. intros g sizes s H. cbn [sb_sub periodic]. apply (hs_grid _ _ H). Qed.

Lemma gf_ss : forall g sizes s k l, construct (periodic_args g sizes) = Ret s -> positive_sizes sizes ->
  on_grid g k l -> 0 < s_ss s k l /\ s_gf s k l = / s_ss s k l.
Proof.
  intros g sizes s k l H P [Hk Hl]. pose proof (periodic_pos g sizes P) as PA.
  assert (Hk' : (k < nx (s_hs s))%nat) by (rewrite (nx_gx _ s H); exact Hk).
  assert (Hl' : (l < ny (s_hs s))%nat) by (rewrite (ny_gy _ s H); exact Hl).
  rewrite (gf_val _ s H PA), (ss_val _ s H PA) by assumption.
  destruct (construct_inv _ s H) as [N _]. destruct (zero_thick_q0 _ _ N) as [Q _]. cbn [periodic_args a_q0] in Q.
  unfold zeroed. rewrite Q, andb_false_r. pose proof (sigma_pos _ s H PA k l Hk' Hl'). split; [assumption|]. field. lra.
Qed.

Lemma periodic_wave : forall g sizes s k l, construct (periodic_args g sizes) = Ret s -> positive_sizes sizes ->
  on_grid g k l -> ~ (k = 0 /\ l = 0)%nat ->
  s_gf s k l = 2 / wavenumber g (cell_size sizes 0) (cell_size sizes 1) k l.
Proof.
  intros g sizes s k l H P G Z. destruct (gf_ss g sizes s k l H P G) as [SP ->].
  rewrite (ss_infinite _ s k l H (periodic_pos g sizes P) G Z) in SP |- * by (left; reflexivity).
  cbn [periodic_args a_young a_poisson a_grid a_sizes] in *. unfold contact_modulus in *.
  replace (1 / (1 - 0 ^ 2)) with 1 in * by field. field. lra.
Qed.

Lemma periodic_mean : forall g sizes s, construct (periodic_args g sizes) = Ret s -> positive_sizes sizes ->
  List.length g = 2%nat ->
  s_gf s 0 0 = 4 / (wavenumber g (cell_size sizes 0) (cell_size sizes 1) 1 0
                    + wavenumber g (cell_size sizes 0) (cell_size sizes 1) 0 1).
Proof.
  intros g sizes s H P L2. pose proof (periodic_pos g sizes P) as PA.
  destruct (ss_default _ s H PA eq_refl (or_introl eq_refl)) as (D & X & [Y|Y]);
    cbn [periodic_args a_grid] in *; [lia|]. rewrite L2 in D. cbn [Nat.eqb] in D.
  assert (G0 : on_grid g 0 0) by (split; lia). assert (G1 : on_grid g 1 0) by (split; lia).
  assert (G2 : on_grid g 0 1) by (split; lia).
  destruct (gf_ss g sizes s 0 0 H P G0) as [S0 E0]. destruct (gf_ss g sizes s 1 0 H P G1) as [S1 E1].
  destruct (gf_ss g sizes s 0 1 H P G2) as [S2 E2].
  rewrite (periodic_wave g sizes s 1 0 H P G1) in E1 by lia. rewrite (periodic_wave g sizes s 0 1 H P G2) in E2 by lia.
  rewrite E0, D.
  set (a := wavenumber _ _ _ 1 0) in *. set (b := wavenumber _ _ _ 0 1) in *.
  assert (A1 : a = 2 * s_ss s 1 0).
  { assert (a <> 0). { intro Z. rewrite Z in E1. unfold Rdiv in E1. rewrite Rinv_0 in E1.
      assert (0 < / s_ss s 1 0) by (apply Rinv_0_lt_compat; exact S1). lra. }
    apply (f_equal Rinv) in E1. rewrite Rinv_inv in E1. rewrite <- E1. field. assumption. }
  assert (B1 : b = 2 * s_ss s 0 1).
  { assert (b <> 0). { intro Z. rewrite Z in E2. unfold Rdiv in E2. rewrite Rinv_0 in E2.
      assert (0 < / s_ss s 0 1) by (apply Rinv_0_lt_compat; exact S2). lra. }
    apply (f_equal Rinv) in E2. rewrite Rinv_inv in E2. rewrite <- E2. field. assumption. }
  rewrite A1, B1. field. lra.
Qed.

Lemma periodic_area : forall g sizes s, construct (periodic_args g sizes) = Ret s -> positive_sizes sizes ->
  0 < area_per_pt (s_hs s).
Proof. intros g sizes s H P. destruct (construct_inv _ s H) as [N _]. exact (area_pos _ _ N (periodic_pos g sizes P)). Qed.

(** Displacements of the forces [j], pressures [j / area]. *)
Lemma periodic_field : forall g sizes s (j : field), construct (periodic_args g sizes) = Ret s -> positive_sizes sizes ->
  List.length g = 2%nat ->
  periodic_response g (cell_size sizes 0) (cell_size sizes 1)
    (fun x y => j x y / area_per_pt (s_hs s))
    (write g 0 (respond g (evaluate_disp s) (fun p => - j (px p) (py p)))).
Proof.
  intros g sizes s j H P L2. pose proof (periodic_area g sizes s H P) as PA.
  pose proof (disp_multiplier _ s H) as M. cbn [periodic_args a_grid] in M.
  set (u := write g 0 _). set (pr := fun x y => j x y / area_per_pt (s_hs s)).
  assert (E : forall k l, on_grid g k l ->
    fft2 (gx g) (gy g) u k l = (RtoC (s_gf s k l) * fft2 (gx g) (gy g) pr k l)%C).
  { intros k l G. unfold u. rewrite (respond_fft g _ _ _ M _ k l G). unfold GF.
    replace (fft2 (gx g) (gy g) (write g 0 (fun p : pt g => - j (px p) (py p))) k l)
      with (RtoC (- area_per_pt (s_hs s)) * fft2 (gx g) (gy g) pr k l)%C.
    - rewrite !Cmult_assoc, <- !RtoC_mult. f_equal. f_equal. field. lra.
    - rewrite <- fft2_scal. apply fft2_ext. intros x y Hx Hy. rewrite (write_in _ _ _ _ _ _ (conj Hx Hy)).
      unfold pr, px, py. cbn. field. lra. }
  split.
  - intros k l G Z. rewrite (E k l G), (periodic_wave g sizes s k l H P G Z). reflexivity.
  - destruct M as (G1 & G2 & _). assert (G0 : on_grid g 0 0) by (split; assumption).
    specialize (E 0%nat 0%nat G0). rewrite !fft2_00, (periodic_mean g sizes s H P L2), <- RtoC_mult in E.
    apply RtoC_inj in E. unfold mean, HalfSpace_Spec.total. rewrite E. unfold Rdiv. ring.
Qed.

(** ** Response without periodicity *)
Lemma free_area : forall g sizes s, free_construct (free_args g sizes) = Ret s -> positive_sizes sizes ->
  0 < area_per_pt (f_hs s) /\ area_per_pt (f_hs s) = point_area g sizes.
Proof.
  intros g sizes s H P. destruct (free_inv _ s H) as (L & [_ _ [P1 P2] _ _ _ A _] & _). cbn [free_args fa_grid fa_sizes] in *.
  destruct (A L) as (_ & _ & _ & _ & E). rewrite E. split; [|reflexivity]. unfold point_area. rewrite L. cbn [Nat.eqb].
  pose proof (cell_pos sizes 0 P (free_sizes _ _ H)). pose proof (cell_pos sizes 1 P (free_sizes _ _ H)).
  apply Rdiv_lt_0_compat; apply Rmult_lt_0_compat; try assumption; apply lt_0_INR; assumption.
Qed.

Lemma free_field : forall g sizes s (j : field), free_construct (free_args g sizes) = Ret s -> positive_sizes sizes ->
  (forall x y, ~ on_grid g x y -> j x y = 0) ->
  free_response g sizes (fun x y => j x y / area_per_pt (f_hs s))
    (write (f_dom s) 0 (respond (f_dom s) (fun f => free_disp s f false) (fun p => - j (px p) (py p)))).
Proof.
  intros g sizes s j H P Z x y G. destruct (free_area g sizes s H P) as [PA EA].
  pose proof (cell_pos sizes 0 P (free_sizes _ _ H)) as C0. pose proof (cell_pos sizes 1 P (free_sizes _ _ H)) as C1.
  destruct (C34_padded_agrees _ s (fun x y => - j x y) H (Rgt_not_eq _ _ C0) (Rgt_not_eq _ _ C1)) as (up & v & w & U1 & U2 & U3 & S1 & S2 & S3 & _ & E2).
  destruct (C33_free_convolution _ s (fun x y => - j x y) false H (Rgt_not_eq _ _ C0) (Rgt_not_eq _ _ C1)) as (w' & W1 & _ & W3).
  rewrite U3 in W1. injection W1 as <-. cbn [free_args fa_grid fa_sizes fa_young] in *.
  destruct (free_inv _ s H) as (L & _ & D & _). cbn [free_args fa_grid] in *.
  assert (GD : on_grid (f_dom s) x y).
  { destruct G as [Gx Gy]. rewrite D. unfold on_grid, gx, gy in *. destruct g as [|n [|m [|? ?]]]; try discriminate. cbn in *. lia. }
  rewrite (write_in _ _ _ _ _ _ GD). unfold respond.
  assert (EQ : mkArr (f_dom s) (write (f_dom s) 0 (fun p : pt (f_dom s) => - j (px p) (py p)))
             = mkArr (map (fun n => (2 * n)%nat) g) (extend0 g (fun x y => - j x y))).
  { rewrite <- D. f_equal. funext. funext. rename x0 into a, x1 into b. unfold extend0.
    destruct (Nat.ltb_spec a (gx g)) as [A|A], (Nat.ltb_spec b (gy g)) as [B|B]; cbn [andb];
      unfold write; (destruct (bool_dec _ _) as [K|K]; [unfold px, py; cbn [proj1_sig fst snd]|]); try reflexivity;
      try (rewrite Z by (unfold on_grid; lia); lra).
    exfalso. apply K. apply inside_true. rewrite D. unfold gx, gy in *. destruct g as [|n [|m [|? ?]]]; try discriminate. cbn in *. lia. }
  rewrite EQ. assert (F : free_disp s (mkArr (map (fun n => (2 * n)%nat) g) (extend0 g (fun x y => - j x y))) false = Ret up).
  { rewrite <- U1. unfold free_disp. cbn [a_shape]. rewrite D, shape_eqb_refl. reflexivity. }
  rewrite F. unfold read. change (a_val up x y = Rsum2 (gx g) (gy g) (fun x' y' =>
    influence g 1 sizes (offset x x') (offset y y') * (j x' y' / area_per_pt (f_hs s)))). rewrite <- (E2 _ _ G), (W3 x y G).
  rewrite <- Rsum2_scal. apply Rsum2_ext. intros. rewrite EA. field. rewrite <- EA. lra.
Qed.
