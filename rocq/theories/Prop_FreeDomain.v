(** * C102 Contact on a free half-space does not depend on the size of the domain *)
From Coq Require Import Reals ZArith Lia Lra List Arith Bool FunctionalExtensionality.
From Verif Require Import Prop_Signorini.
From Verif Require Import Py FFT_Base HalfSpace_Spec HalfSpace_Model HalfSpace_Proofs
  Free_Model Free_Spec Free_Proofs Free_Results Systems_Model Systems_Spec Systems_Proofs
  Pipeline_Model Contact_Model Contact_Proofs Contact_Results Free_Energy Prop_Free Prop_FreeEnergy FreeMotion_Spec Prop_FreeMotion FreeDomain_Spec.
From Verif Require CCG_Model CCG_Spec CCG_Proofs CCG_Results2 CCG_Returns.
From Coq Require Import List.
Import ListNotations.
Local Open Scope R_scope.

Lemma placed_in : forall n m i j p x y, (x < n)%nat -> (y < m)%nat -> placed n m i j p (i + x)%nat (j + y)%nat = p x y.
Proof.
  intros n m i j p x y X Y. unfold placed. destruct (Nat.leb_spec i (i + x)); [|lia]. destruct (Nat.ltb_spec (i + x) (i + n)); [|lia].
  destruct (Nat.leb_spec j (j + y)); [|lia]. destruct (Nat.ltb_spec (j + y) (j + m)); [|lia]. cbn. f_equal; lia.
Qed.
Lemma placed_out : forall n m i j p x y, ~ in_window n m i j x y -> placed n m i j p x y = 0.
Proof.
  intros n m i j p x y O. unfold placed, in_window in *. destruct (Nat.leb_spec i x); [|reflexivity]. destruct (Nat.ltb_spec x (i + n)); [|reflexivity].
  destruct (Nat.leb_spec j y); [|reflexivity]. destruct (Nat.ltb_spec y (j + m)); [|reflexivity]. exfalso. apply O. lia.
Qed.
Lemma in_window_dec : forall n m i j x y, {in_window n m i j x y} + {~ in_window n m i j x y}.
Proof.
  intros. unfold in_window. destruct (le_lt_dec i x); [|right; lia]. destruct (le_lt_dec (i + n) x); [right; lia|].
  destruct (le_lt_dec j y); [|right; lia]. destruct (le_lt_dec (j + m) y); [right; lia|]. left. lia.
Qed.
Lemma placed_opp : forall n m i j p, (fun x y => - placed n m i j p x y) = placed n m i j (fun x y => - p x y).
Proof.
  intros. apply functional_extensionality. intros x. apply functional_extensionality. intros y. unfold placed. destruct (andb _ _); [reflexivity|ring].
Qed.
Lemma placed_back : forall n m i j p, (forall x y, ~ in_window n m i j x y -> p x y = 0) ->
  p = placed n m i j (fun x y => p (i + x)%nat (j + y)%nat).
Proof.
  intros n m i j p Z. apply functional_extensionality. intros x. apply functional_extensionality. intros y.
  destruct (in_window_dec n m i j x y) as [[X Y]|O].
  - replace x with (i + (x - i))%nat by lia. replace y with (j + (y - j))%nat by lia. rewrite placed_in by lia. reflexivity.
  - rewrite placed_out by exact O. apply Z. exact O.
Qed.

Lemma free_grid : forall a s, free_construct a = Ret s -> sb_grid (free s) = fa_grid a.
Proof. intros a s H. destruct (free_inv a s H) as (_ & G & _). exact (g_grid _ _ G). Qed.
(** What both half-spaces return. *)
Lemma both_disp : forall a a' s s' i j p, free_construct a = Ret s -> free_construct a' = Ret s' -> enlarged a a' i j ->
  exists u u', free_disp s (mkArr (fa_grid a) p) false = Ret u
  /\ free_disp s' (mkArr (fa_grid a') (placed (gx (fa_grid a)) (gy (fa_grid a)) i j p)) false = Ret u'
  /\ (forall x y, on_grid (fa_grid a) x y -> a_val u' (i + x)%nat (j + y)%nat = a_val u x y)
  /\ ((forall x y, on_grid (fa_grid a) x y -> p x y <= 0) -> forall x y, on_grid (fa_grid a') x y -> 0 <= a_val u' x y
      /\ ((exists x0 y0, on_grid (fa_grid a) x0 y0 /\ p x0 y0 < 0) -> 0 < a_val u' x y)).
Proof.
  intros a a' s s' i j p H H' (E0 & EY & C0 & C1 & D0 & D1 & SP & B1 & B2). set (n := gx (fa_grid a)) in *. set (m := gy (fa_grid a)) in *.
  assert (SO : sizes_ok a) by (split; lra). assert (SO' : sizes_ok a') by (split; lra).
  destruct (C101_placed a a' s s' n m 0 0 i j p H H' SO SO' EY SP) as (u & u' & U & U' & EQ); try (fold n m; lia).
  destruct (C33_free_convolution a s p false H (proj1 SO) (proj2 SO)) as (v & V1 & _ & V).
  destruct (C33_free_convolution a s (placed n m 0 0 p) false H (proj1 SO) (proj2 SO)) as (w & W1 & _ & W).
  rewrite U in W1. injection W1 as <-.
  assert (UV : forall x y, on_grid (fa_grid a) x y -> a_val u x y = a_val v x y).
  { intros x y G. rewrite (W x y G), (V x y G). f_equal. apply Rsum2_ext. intros x' y' X Y. f_equal. exact (placed_in n m 0 0 p x' y' X Y). }
  exists v, u'. split; [exact V1|]. split; [exact U'|]. split.
  - intros x y G. rewrite <- (UV x y G). apply EQ; [exact G| |unfold offset; lia|unfold offset; lia]. destruct G as [X Y]. fold n in X. fold m in Y. split; lia.
  - intros NP x y G.
    destruct (C33_free_convolution a' s' (placed n m i j p) false H' (proj1 SO') (proj2 SO')) as (z & Z1 & _ & Z).
    rewrite U' in Z1. injection Z1 as <-. rewrite (Z x y G), Rsum2_placed by assumption.
    destruct (free_inv a' s' H') as (L' & GA' & _). pose proof (g_pos _ _ GA') as [P1 P2].
    assert (AR : 0 < point_area (fa_grid a') (fa_sizes a')).
    { unfold point_area. rewrite L'. cbn [Nat.eqb]. apply Rdiv_lt_0_compat; apply Rmult_lt_0_compat; try assumption; apply lt_0_INR; assumption. }
    assert (KP : forall k l, 0 < influence (fa_grid a') (fa_young a') (fa_sizes a') k l).
    { intros k l. apply influence_pos; [rewrite EY; exact E0| |]; unfold spacing; apply Rdiv_lt_0_compat; try assumption; apply lt_0_INR; assumption. }
    pose proof (Rinv_0_lt_compat _ AR) as AI.
    set (Q := Rsum2 n m _).
    assert (OP : - / point_area (fa_grid a') (fa_sizes a') * Q = / point_area (fa_grid a') (fa_sizes a') * - Q) by ring.
    assert (QO : - Q = Rsum2 n m (fun x0 y0 => influence (fa_grid a') (fa_young a') (fa_sizes a') (offset x (i + x0)) (offset y (j + y0)) * - p x0 y0)).
    { unfold Q. replace (- Rsum2 n m _) with ((-1) * Rsum2 n m (fun x0 y0 => influence (fa_grid a') (fa_young a') (fa_sizes a') (offset x (i + x0)) (offset y (j + y0)) * p x0 y0)) by ring.
      rewrite <- Rsum2_scal. apply Rsum2_ext. intros. ring. }
    split.
    + enough (0 <= - Q) by nra. rewrite QO. unfold Rsum2. apply Rsum_nonneg. intros x0 X. apply Rsum_nonneg. intros y0 Y.
      pose proof (KP (offset x (i + x0)) (offset y (j + y0))). pose proof (NP x0 y0 (conj X Y)). nra.
    + intros (x0 & y0 & [X0 Y0] & LT). enough (0 < - Q) by nra. rewrite QO. apply (Rsum2_pos1 _ _ _ x0 y0 X0 Y0).
      * intros k l K1 K2. pose proof (KP (offset x (i + k)) (offset y (j + l))). pose proof (NP k l (conj K1 K2)). nra.
      * pose proof (KP (offset x (i + x0)) (offset y (j + y0))). nra.
Qed.

(** A contact on the small half-space is one on the large half-space: nothing else
    touches, the forces and displacements stay. *)
Theorem C102_larger : forall a a' s s' i j h h' delta tol F u, free_construct a = Ret s -> free_construct a' = Ret s' ->
  enlarged a a' i j -> continued a a' i j h h' delta -> 0 <= tol -> in_contact (free s) h delta tol F u ->
  exists u', in_contact (free s') h' delta tol (placed (gx (fa_grid a)) (gy (fa_grid a)) i j F) u'
  /\ (forall x y, on_grid (fa_grid a) x y -> u' (i + x)%nat (j + y)%nat = u x y)
  /\ (forall x y, on_grid (fa_grid a') x y -> ~ in_window (gx (fa_grid a)) (gy (fa_grid a)) i j x y ->
      (exists x0 y0, on_grid (fa_grid a) x0 y0 /\ 0 < F x0 y0) -> 0 < u' x y - (h' x y + delta)).
Proof.
  intros a a' s s' i j h h' delta tol F u H H' EN [CI CO] T [(U & U1 & UE) CT]. rewrite (free_grid a s H) in *. cbn [free sb_disp] in U1.
  set (n := gx (fa_grid a)) in *. set (m := gy (fa_grid a)) in *.
  destruct (both_disp a a' s s' i j (fun x y => - F x y) H H' EN) as (v & v' & V & V' & EQ & SG). rewrite U1 in V. injection V as <-. fold n m in V'.
  assert (NP : forall x y, on_grid (fa_grid a) x y -> - F x y <= 0) by (intros x y G; destruct (CT x y G) as (X & _); lra).
  exists (a_val v'). split; [split|split].
  - exists v'. split; [|reflexivity]. rewrite placed_opp, (free_grid a' s' H'). exact V'.
  - rewrite (free_grid a' s' H'). intros x y G. destruct (in_window_dec n m i j x y) as [[X Y]|O].
    + replace x with (i + (x - i))%nat by lia. replace y with (j + (y - j))%nat by lia.
      assert (G0 : on_grid (fa_grid a) (x - i) (y - j)) by (split; fold n m; lia).
      rewrite placed_in by lia. rewrite (EQ _ _ G0), (CI _ _ G0), <- (UE _ _ G0). exact (CT _ _ G0).
    + rewrite placed_out by exact O. destruct (SG NP x y G) as [S0 _]. pose proof (CO x y G O). split; [lra|]. split; [lra|]. intros; lra.
  - intros x y G. rewrite (EQ x y G). symmetry. exact (UE x y G).
  - intros x y G O (x0 & y0 & G0 & P0). destruct (SG NP x y G) as [_ S0]. pose proof (CO x y G O).
    assert (0 < a_val v' x y) by (apply S0; exists x0, y0; split; [exact G0|lra]). lra.
Qed.
Print Assumptions C102_larger.

(** A contact on the large half-space without forces elsewhere is one on the small one. *)
Theorem C102_smaller : forall a a' s s' i j h h' delta tol F' u', free_construct a = Ret s -> free_construct a' = Ret s' ->
  enlarged a a' i j -> (forall x y, on_grid (fa_grid a) x y -> h' (i + x)%nat (j + y)%nat = h x y) ->
  in_contact (free s') h' delta tol F' u' ->
  (forall x y, ~ in_window (gx (fa_grid a)) (gy (fa_grid a)) i j x y -> F' x y = 0) ->
  in_contact (free s) h delta tol (fun x y => F' (i + x)%nat (j + y)%nat) (fun x y => u' (i + x)%nat (j + y)%nat).
Proof.
  intros a a' s s' i j h h' delta tol F' u' H H' EN CI [(U' & U1 & UE) CT] Z. rewrite (free_grid a' s' H') in *. cbn [free sb_disp] in U1.
  rewrite (placed_back _ _ _ _ F' Z), placed_opp in U1.
  destruct (both_disp a a' s s' i j (fun x y => - F' (i + x)%nat (j + y)%nat) H H' EN) as (v & v' & V & V' & EQ & _).
  rewrite U1 in V'. injection V' as <-.
  assert (LG : forall x y, on_grid (fa_grid a) x y -> on_grid (fa_grid a') (i + x) (j + y)).
  { intros x y [X Y]. destruct EN as (_ & _ & _ & _ & _ & _ & _ & B1 & B2). split; lia. }
  unfold in_contact. rewrite (free_grid a s H). split.
  - exists v. split; [exact V|]. intros x y G. rewrite <- (EQ x y G). apply UE, LG, G.
  - intros x y G. rewrite <- (CI x y G). exact (CT _ _ (LG x y G)).
Qed.
Print Assumptions C102_smaller.

(** What the solver found on the small half-space holds on the large one. *)
Lemma solver_disp : forall a s (jac : field), free_construct a = Ret s -> sizes_ok a -> (forall x y, ~ on_grid (fa_grid a) x y -> jac x y = 0) ->
  exists U, free_disp s (mkArr (fa_grid a) (fun x y => - jac x y)) false = Ret U
  /\ forall x y, on_grid (fa_grid a) x y ->
     write (f_dom s) 0 (respond (f_dom s) (fun f => free_disp s f false) (fun p => - jac (px p) (py p))) x y = a_val U x y.
Proof.
  intros a s jac H [C0 C1] Z.
  destruct (C34_padded_agrees _ s (fun x y => - jac x y) H C0 C1) as (up & v & w & U1 & U2 & U3 & S1 & S2 & S3 & _ & E2).
  exists w. split; [exact U3|]. intros x y G. destruct (free_inv _ s H) as (L & _ & D & _). set (g := fa_grid a) in *.
  assert (GD : on_grid (f_dom s) x y).
  { destruct G as [Gx Gy]. rewrite D. unfold on_grid, gx, gy in *. destruct g as [|n [|m [|? ?]]]; try discriminate. cbn in *. lia. }
  rewrite (write_in _ _ _ _ _ _ GD). unfold respond.
  assert (EQ : mkArr (f_dom s) (write (f_dom s) 0 (fun p : pt (f_dom s) => - jac (px p) (py p)))
             = mkArr (map (fun n => (2 * n)%nat) g) (extend0 g (fun x y => - jac x y))).
  { rewrite <- D. f_equal. apply functional_extensionality. intros i. apply functional_extensionality. intros j. unfold extend0.
    destruct (Nat.ltb_spec i (gx g)) as [A|A], (Nat.ltb_spec j (gy g)) as [B|B]; cbn [andb];
      unfold write; (destruct (bool_dec _ _) as [K|K]; [unfold px, py; cbn [proj1_sig fst snd]|]); try reflexivity;
      try (rewrite Z by (unfold on_grid; lia); lra).
    exfalso. apply K. apply inside_true. rewrite D. unfold gx, gy in *. destruct g as [|n [|m [|? ?]]]; try discriminate. cbn in *. lia. }
  rewrite EQ. assert (F : free_disp s (mkArr (map (fun n => (2 * n)%nat) g) (extend0 g (fun x y => - jac x y))) false = Ret up).
  { rewrite <- U1. unfold free_disp. cbn [a_shape]. rewrite D, shape_eqb_refl. reflexivity. }
  rewrite F. unfold read. symmetry. exact (E2 x y G).
Qed.
Theorem C102_solver : forall o a s sf off pentol k r n m, free_construct a = Ret s -> sizes_ok a -> fa_grid a = [n; m] -> 0 <= pentol ->
  CCG_Spec.ccg (solver_cfg o (free s) sf None None off pentol) k = CCG_Model.Ok r ->
  let F := a_val (o_jac (result_object (free s) r)) in
  let u := a_val (o_x (result_object (free s) r)) in
  let h := a_val (heights sf) in
  (CCG_Model.x_success r = true -> CCG_Model.x_str r = CCG_Model.Cg -> CCG_Model.x_tau r <> 0 ->
     in_contact (free s) h off (pentol * (1 + sqrt (INR (4 * (n * m))))) F u)
  /\ forall a' s' i j, free_construct a' = Ret s' -> enlarged a a' i j ->
     exists u', sb_disp (free s') (mkArr (fa_grid a') (fun x y => - placed n m i j F x y)) = Ret u'
     /\ (forall x y, on_grid [n; m] x y -> a_val u' (i + x)%nat (j + y)%nat = u x y)
     /\ forall h' tol, continued a a' i j h h' off -> 0 <= tol -> in_contact (free s) h off tol F u ->
        in_contact (free s') h' off tol (placed n m i j F) (a_val u').
Proof.
  intros o a s sf off pentol k r n m H SO EG PT HR F u h.
  assert (SG : sb_grid (free s) = [n; m]) by (rewrite (free_grid a s H); exact EG).
  assert (SS : sb_sub (free s) = [2 * n; 2 * m]%nat) by (destruct (free_inv _ s H) as (_ & _ & D & _); cbn [free sb_sub]; rewrite D, EG; reflexivity).
  assert (CS : comp_shape (free s) = [n; m]).
  { unfold comp_shape. rewrite SG, SS. cbn [combine map fst snd]. rewrite !Nat.min_l by lia. reflexivity. }
  set (c := solver_cfg o (free s) sf None None off pentol) in *.
  assert (OF : CCG_Model.x_offset r = off) by (apply CCG_Proofs.offset_kept in HR; [exact HR|reflexivity]).
  assert (SV : ccg_solver o (free s) sf None (mkSa (Some off) None pentol k) = Ret (result_object (free s) r)).
  { rewrite solver_eq by (rewrite SG; right; reflexivity). cbn [sa_offset sa_force sa_pentol sa_maxiter]. fold c. rewrite HR. reflexivity. }
  assert (NN : nonneg None) by (intros ? ?; discriminate).
  destruct (solver_response _ _ _ _ _ _ NN SV) as (_ & _ & Z & U). fold u in U. fold F in Z, U. rewrite CS in Z.
  destruct (solver_disp a s F H SO) as (W & W1 & W2); [rewrite EG; exact Z|].
  assert (UW : forall x y, on_grid (fa_grid a) x y -> u x y = a_val W x y) by (intros x y G; rewrite U; exact (W2 x y G)).
  split.
  - intros SU ST TA.
    assert (TP : 0 <= pentol * sqrt (INR (4 * (n * m)))) by (apply Rmult_le_pos; [exact PT|apply sqrt_pos]).
    split; [exists W; rewrite SG, <- EG; split; [exact W1|exact UW]|].
    rewrite SG. intros x y [X Y]. cbn in X, Y.
    destruct (CCG_Results2.converged_elastic c k r eq_refl) as (L1 & L2 & L3 & L4); try assumption.
    specialize (L4 (or_introl TA)).
    assert (NA : 0 <= sqrt (INR (CCG_Spec.n_active c r)) <= sqrt (INR (4 * (n * m)))).
    { split; [apply sqrt_pos|]. apply sqrt_le_1_alt, le_INR. unfold CCG_Spec.n_active, c. rewrite cfg_grid.
      eapply Nat.le_trans; [apply filter_le|]. rewrite points_length by (rewrite SS; reflexivity). rewrite SS. cbn. lia. }
    assert (HG : (x < gx (sb_sub (free s)))%nat /\ (y < gy (sb_sub (free s)))%nat) by (rewrite SS; cbn; lia).
    assert (FE : F x y = CCG_Model.x_jac r (at_pt (sb_sub (free s)) x y HG)).
    { unfold F. cbn [result_object o_jac a_val]. rewrite (write_in _ (sb_sub (free s)) _ _ x y HG). reflexivity. }
    assert (UE : u x y = CCG_Model.x_x r (at_pt (sb_sub (free s)) x y HG)).
    { unfold u. cbn [result_object o_x a_val]. rewrite (write_in _ (sb_sub (free s)) _ _ x y HG). reflexivity. }
    rewrite FE, UE. set (z := at_pt (sb_sub (free s)) x y HG) in *.
    assert (OS : CCG_Spec.on_surface c z) by (apply cfg_surface; rewrite CS; apply inside_true; cbn; split; assumption).
    assert (IZ : In z (CCG_Spec.grid c)) by apply cfg_covers. specialize (L1 z IZ OS). specialize (L2 z). specialize (L3 z). specialize (L4 z IZ OS).
    assert (GZ : CCG_Spec.gap c r z = CCG_Model.x_x r z - (h x y + off)).
    { unfold CCG_Spec.gap. rewrite OF. change (CCG_Model.c_h c z) with (h x y). ring. }
    rewrite GZ in *. change (CCG_Model.c_pentol c) with pentol in *.
    split; [exact L2|]. split; [lra|]. intros PP. destruct (CCG_Model.x_active r z) eqn:AZ.
    + specialize (L4 eq_refl). apply Rabs_def2 in L4. destruct L4 as [L4 _]. left. eapply Rlt_le_trans; [exact L4|].
      apply Rmult_le_compat_l; lra.
    + exfalso. destruct (L3 eq_refl) as [Q|(Fx & Q & _)]; [|discriminate]. lra.
  - intros a' s' i j H' EN.
    destruct (both_disp a a' s s' i j (fun x y => - F x y) H H' EN) as (v & v' & V & V' & EQ & SG'). rewrite W1 in V. injection V as <-.
    rewrite EG in V'. cbn [gx gy nth] in V'. exists v'. rewrite placed_opp. split; [exact V'|]. rewrite EG in *. split.
    { intros x y G. rewrite (EQ x y G). symmetry. exact (UW x y G). }
    intros h' tol CO T IC.
    destruct (C102_larger a a' s s' i j h h' off tol F u H H' EN CO T IC) as (w & [(w1 & Q1 & Q2) Q3] & _ & _). rewrite EG in *. cbn [gx gy nth] in *.
    rewrite (free_grid a' s' H') in *. rewrite placed_opp in Q1. cbn [free sb_disp] in Q1. rewrite V' in Q1. injection Q1 as <-.
    split; rewrite (free_grid a' s' H').
    + exists v'. rewrite placed_opp. split; [exact V'|reflexivity].
    + intros x y G. rewrite <- (Q2 x y G). exact (Q3 x y G).
Qed.
Print Assumptions C102_solver.

(** ** Cases *)
(** 3 x 2 points inside 9 x 7 points; a surface that fits the half-space deformed by a
    force of one at every point, flat outside; every elastic run at a given offset. *)
Example C102_nonvacuous : exists s s' h h' u,
  free_construct fhA = Ret s /\ free_construct wider = Ret s' /\ enlarged fhA wider 4 3 /\ continued fhA wider 4 3 h h' 0
  /\ in_contact (free s) h 0 0 (fun _ _ => 1) u
  /\ (exists u', in_contact (free s') h' 0 0 (placed 3 2 4 3 (fun _ _ => 1)) u'
       /\ forall x y, ~ in_window (gx (fa_grid fhA)) (gy (fa_grid fhA)) 4 3 x y -> placed 3 2 4 3 (fun _ _ => 1) x y = 0)
  /\ sizes_ok fhA /\ forall o sf off pentol k, exists r, CCG_Spec.ccg (solver_cfg o (free s) sf None None off pentol) (S k) = CCG_Model.Ok r.
Proof.
  destruct C101_nonvacuous as [(s & s' & H & H' & SO & SO' & EY & SP & _) _].
  assert (EN : enlarged fhA wider 4 3).
  { split; [unfold fhA; cbn; lra|]. split; [exact EY|]. unfold cell_size.
    split; [cbn; lra|]. split; [cbn; lra|]. split; [cbn; lra|]. split; [cbn; lra|]. split; [exact SP|]. cbn. lia. }
  destruct (C33_free_convolution fhA s (fun _ _ => - (1)) false H (proj1 SO) (proj2 SO)) as (U & U1 & _ & _).
  set (h' := placed 3 2 4 3 (a_val U)).
  assert (CO : continued fhA wider 4 3 (a_val U) h' 0).
  { split.
    - intros x y [X Y]. apply placed_in; assumption.
    - intros x y _ O. unfold h'. rewrite placed_out by exact O. lra. }
  assert (IC : in_contact (free s) (a_val U) 0 0 (fun _ _ => 1) (a_val U)).
  { split.
    - exists U. split; [|reflexivity]. rewrite (free_grid _ s H). exact U1.
    - intros x y _. split; [lra|]. split; [lra|]. intros _. lra. }
  exists s, s', (a_val U), h', (a_val U). split; [exact H|]. split; [exact H'|]. split; [exact EN|]. split; [exact CO|]. split; [exact IC|].
  split; [|split; [exact SO|]].
  - destruct (C102_larger _ _ _ _ _ _ _ _ _ _ _ _ H H' EN CO (Rle_refl 0) IC) as (u' & I' & _). exists u'. split; [exact I'|].
    intros x y O. apply placed_out. exact O.
  - intros. apply CCG_Returns.ccg_returns. left. reflexivity.
Qed.
