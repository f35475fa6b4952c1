(** * Properties of the command line with the real solver (C91)

    [hw_main] with [hw_solver]: the program of HardWall.py with the solver of
    CCG_Model.v on the half-spaces.  [o] are the tolerances of the solver,
    [rms] the rms height of a surface; the reader of the topography file,
    [detrend], [float_of], [int_of] and [active] stay arbitrary. *)
From Coq Require Import Reals ZArith Lia Lra List Arith Bool String FunctionalExtensionality.
From Coquelicot Require Import Complex Coquelicot.
From Verif Require Import Py FFT_Base HalfSpace_Model HalfSpace_Spec HalfSpace_Proofs HalfSpace_Results
  HalfSpace_Results2 HalfSpace_Results3 Free_Model Free_Spec Free_Proofs Systems_Model Systems_Spec Systems_Proofs Factory_Model
  Pipeline_Model Pipeline_Spec Pipeline_Proofs Pipeline_Results Pipeline_More Contact_Model Contact_Spec Contact_Proofs Contact_Results Contact_Results2 Contact_Results3 Contact_Load Prop_Contact
  Signorini_Spec Signorini_Periodic
  HardWall_Model HardWall_Spec HardWall_Proofs HardWall_Results Prop_HardWall NetCDF_Model NetRun_Model NetRun_Spec Prop_NetRun
  Cli_Model Cli_Spec Cli_Results.
From Verif Require CCG_Model CCG_Real CCG_Spec CCG_Proofs CCG_Results CCG_Results2 CCG_Returns.
From Coq Require Import List.
Import ListNotations.
Local Open Scope R_scope.

(** ** Shapes *)
Lemma cli_shapes : forall a t sb young n m lx ly, hw_substrate a t = Ret (sb, young) ->
  sf_grid (sc_surface t) = [n; m] -> sc_sizes t = [lx; ly] ->
  comp_shape sb = [n; m] /\ exists n' m', sb_sub sb = [n'; m'] /\ (n <= n')%nat /\ (m <= m')%nat.
Proof.
  intros a t sb young n m lx ly H G SZ. destruct (hw_substrate_inv _ _ _ _ _ _ H G) as (SG & _).
  unfold comp_shape. rewrite SG.
  destruct (substrate_cases _ _ _ _ _ _ _ _ H G SZ) as [(_ & s & C0 & ->)|(_ & _ & s & C0 & ->)].
  - cbn [sb_grid sb_sub periodic] in *. rewrite SG. cbn. rewrite !Nat.min_id. split; [reflexivity|]. exists n, m. auto.
  - destruct (free_inv _ _ C0) as (_ & _ & D & _). cbn [fa_grid cli_free map] in D. cbn [sb_sub free]. rewrite D.
    cbn [map combine fst snd]. rewrite !Nat.min_l by lia. split; [reflexivity|]. exists (2 * n)%nat, (2 * m)%nat.
    split; [reflexivity|]. lia.
Qed.

Lemma cli_fits : forall o rms a t sb young n m lx ly, hw_substrate a t = Ret (sb, young) ->
  sf_grid (sc_surface t) = [n; m] -> sc_sizes t = [lx; ly] -> fits_grid (hw_solver o rms) sb n m.
Proof.
  intros o rms a t sb young n m lx ly H G SZ sf h off force pentol maxiter r _ S.
  destruct (cli_shapes _ _ _ _ _ _ _ _ H G SZ) as (CS & n' & m' & SB & L1 & L2).
  destruct (hw_solver_inv _ _ _ _ _ _ _ _ _ _ S) as (p & _ & S'). destruct (solver_inv _ _ _ _ _ _ S') as (r' & _ & ->).
  cbn [result_object o_jac o_x a_shape]. split; [exact CS|]. exists n', m'. auto.
Qed.

Lemma hardness_of_run : forall detrend load file_unit a t h, read_surface detrend load file_unit a = Ret t -> hw_hardness a = Some h ->
  sf_hardness (sc_surface t) = h.
Proof.
  intros detrend load file_unit a t h Rd E. unfold read_surface in Rd. rewrite E in Rd.
  apply bindRet in Rd. destruct Rd as (t0 & _ & Rd). apply bindRet in Rd. destruct Rd as (fac & _ & Rd).
  apply bindRet in Rd. destruct Rd as (sf & _ & Rd). injection Rd as <-. reflexivity.
Qed.

(** ** The sum of the forces *)
Lemma shape_total : forall o sb sf hd force off pt (r : CCG_Model.sresult) n m n' m', comp_shape sb = [n; m] ->
  sb_sub sb = [n'; m'] -> (n <= n')%nat -> (m <= m')%nat -> (0 < n)%nat -> (0 < m)%nat ->
  CCG_Spec.total (solver_cfg o sb sf hd force off pt) r = asum (o_jac (result_object sb r)).
Proof.
  intros o sb sf hd force off pt r n m n' m' CS SB L1 L2 N M.
  unfold CCG_Spec.total. rewrite cfg_grid, Contact_Results3.lsum_filter_if.
  cbn [result_object o_jac]. rewrite CS, asum_grid by (repeat split; try assumption; right; reflexivity).
  rewrite sum_points. unfold HalfSpace_Spec.total.
  assert (LX : (gx [n; m] <= gx (sb_sub sb))%nat) by (rewrite SB; exact L1).
  assert (LY : (gy [n; m] <= gy (sb_sub sb))%nat) by (rewrite SB; exact L2).
  rewrite <- (Rsum2_pad (gx [n; m]) (gy [n; m]) (gx (sb_sub sb)) (gy (sb_sub sb))) by assumption.
  apply Rsum2_ext. intros x y Hx Hy. rewrite !(write_in _ _ _ _ _ _ (conj Hx Hy)).
  unfold solver_cfg. cbn [CCG_Model.c_slice CCG_Model.c_masked negb]. rewrite andb_true_r, CS. reflexivity.
Qed.

Lemma plastic_nonneg : forall detrend load file_unit a t n m lx ly, read_surface detrend load file_unit a = Ret t ->
  scanned_as t n m lx ly -> physical a lx ly -> (0 < n)%nat -> (0 < m)%nat ->
  nonneg (match hw_hardness a with Some _ => Some (sf_hardness (sc_surface t) * sf_area (sc_surface t)) | None => None end).
Proof.
  intros detrend load file_unit a t n m lx ly Rd (G & SZ & AR) (LX & LY & YO & NU & TH & HA) N M h Eh.
  destruct (hw_hardness a) as [h0|] eqn:Hh; [|discriminate]. injection Eh as <-.
  rewrite (hardness_of_run _ _ _ _ _ _ Rd Hh), AR. apply Rmult_le_pos; [apply HA; reflexivity|].
  unfold cell_area. apply Rlt_le, Rdiv_lt_0_compat; [apply Rmult_lt_0_compat; assumption|]. apply lt_0_INR. nia.
Qed.

(** ** The half-space of the periodic calculation *)
Lemma modulus_pos : forall young nu, 0 < young -> -1 < nu < 1 -> 0 < contact_modulus young nu.
Proof. intros young nu Y N. unfold contact_modulus. apply Rdiv_lt_0_compat; [exact Y|nra]. Qed.

Lemma periodic_scaled : forall young nu n m lx ly p u, 0 < young -> -1 < nu < 1 -> 0 < lx -> 0 < ly -> (2 <= n)%nat -> (2 <= m)%nat ->
  periodic_state young nu None n m lx ly p u ->
  periodic_response [n; m] lx ly (fun x y => p x y / contact_modulus young nu) u.
Proof.
  intros young nu n m lx ly p u Y NU LX LY N M H. pose proof (modulus_pos young nu Y NU) as E.
  set (e := contact_modulus young nu) in *.
  assert (F : forall k l, fft2 n m (fun x y => p x y / e) k l = (RtoC (/ e) * fft2 n m p k l)%C).
  { intros k l. rewrite <- fft2_scal. apply fft2_ext. intros. field. lra. }
  split.
  - intros k l [K L] Z. cbn [gx gy nth] in *. rewrite F, (H k l K L).
    assert (W : 0 < wavenumber [n; m] lx ly k l) by (apply Prop_Contact.wavenumber_pos; try assumption; exact (conj K L)).
    unfold wave_stiffness. replace (Nat.eqb k 0 && Nat.eqb l 0)%bool with false
      by (destruct (Nat.eqb_spec k 0), (Nat.eqb_spec l 0); try reflexivity; tauto).
    cbv zeta iota. fold e. set (w := wavenumber [n; m] lx ly k l) in *. rewrite !Cmult_assoc, <- !RtoC_mult.
    replace (2 / w * / e * (e / 2 * w)) with 1 by (field; lra). rewrite Cmult_1_l. reflexivity.
  - pose proof (H 0%nat 0%nat ltac:(lia) ltac:(lia)) as H0. unfold wave_stiffness in H0. cbn [Nat.eqb andb] in H0. cbv zeta in H0. fold e in H0.
    assert (W1 : 0 < wavenumber [n; m] lx ly 1 0) by (apply Prop_Contact.wavenumber_pos; try assumption; [split; cbn; lia|lia]).
    assert (W2 : 0 < wavenumber [n; m] lx ly 0 1) by (apply Prop_Contact.wavenumber_pos; try assumption; [split; cbn; lia|lia]).
    set (w1 := wavenumber [n; m] lx ly 1 0) in *. set (w2 := wavenumber [n; m] lx ly 0 1) in *.
    rewrite !fft2_00, <- RtoC_mult in H0. apply RtoC_inj in H0.
    unfold mean, HalfSpace_Spec.total. cbn [gx gy nth].
    rewrite (Rsum2_ext n m (fun x y => p x y / e) (fun x y => / e * p x y)) by (intros; field; lra).
    rewrite Rsum2_scal, H0. field. repeat split; try lra; apply not_0_INR; lia.
Qed.

Section Theorems.
  Variable o : options.
  Variable rms : surface -> R.
  Variable ov : Z -> R.
  Variable subnormal : R -> R.
  Variable float_of : string -> res R.
  Variable int_of : string -> res Z.
  Variable detrend : string -> surface -> res surface.
  Variable load : option string -> res scanned.
  Variable file_unit : option string.
  Variable active : surface -> option R -> option R -> zone.
  Notation main := (hw_main float_of int_of detrend load file_unit (hw_solver o rms) active).
  Notation read := (read_surface detrend load file_unit).
  Notation ask := (asked float_of int_of).

  (** The calculations of a run. *)
  Lemma cli_calculation : forall a t sb young total cs ss n m lx ly, read a = Ret t -> hw_substrate a t = Ret (sb, young) ->
    scanned_as t n m lx ly -> physical a lx ly ->
    hw_explains (hw_solver o rms) a sb total (sc_surface t) cs ss -> forall s, In s ss ->
    a_shape (forces s) = [n; m] /\ a_shape (hd_u s) = [n; m] /\ a_val (hd_u s) = a_val (o_x (hd_opt s))
    /\ elastic_state a n m lx ly (pressures n m lx ly (forces s)) (a_val (hd_u s)).
  Proof.
    intros a t sb young total cs ss n m lx ly Rd Sb (G & SZ & AR) (LX & LY & YO & NU & TH & HA) Ex s Is.
    pose proof (hx_solver _ _ _ _ _ _ _ Ex s Is) as S. destruct (hx_grid _ _ _ _ _ _ _ Ex s Is) as (GB & _). rewrite G in GB.
    destruct (cli_fits o rms _ _ _ _ _ _ _ _ Sb G SZ _ _ _ _ _ _ _ GB S) as (J & n' & m' & X & L1 & L2).
    destruct (hx_fields _ _ _ _ _ _ _ Ex s Is) as (n0 & n1 & J' & U). unfold forces in J' |- *. rewrite J in J'. injection J' as <- <-.
    split; [exact J|]. rewrite (slice_ok n m n' m' _ X L1 L2) in U. injection U as U.
    assert (UV : a_val (hd_u s) = a_val (o_x (hd_opt s))) by (rewrite <- U; reflexivity).
    split; [rewrite <- U; reflexivity|]. split; [exact UV|]. rewrite UV. clear U UV.
    destruct (hw_solver_inv _ _ _ _ _ _ _ _ _ _ S) as (p & _ & S').
    destruct (hw_substrate_inv _ _ _ _ _ _ Sb G) as (_ & _ & N & M & _).
    pose proof (plastic_nonneg _ _ _ _ _ _ _ _ _ Rd (conj G (conj SZ AR)) (conj LX (conj LY (conj YO (conj NU (conj TH HA))))) N M) as NN.
    destruct (solver_response _ _ _ _ _ _ NN S') as (_ & CSh & Z & R1).
    destruct (cli_shapes _ _ _ _ _ _ _ _ Sb G SZ) as (CS & _). rewrite CS in Z.
    unfold elastic_state, pressures. rewrite R1. clear R1.
    destruct (substrate_cases _ _ _ _ _ _ _ _ Sb G SZ) as [(B & sub & C0 & ->)|(B & T0 & sub & C0 & ->)]; rewrite B; (split; [intros Q|intros Q]); try discriminate Q.
    - pose proof (cli_periodic_field n m lx ly (hw_modulus a) (hw_poisson a) (hw_thickness a) LX LY YO NU TH sub C0 (a_val (o_jac (hd_opt s)))) as PF.
      pose proof (hs_grid _ _ C0) as GG. cbn [cli_periodic a_grid] in GG. cbn [periodic sb_sub sb_disp].
      assert (W : forall u, write (h_grid (s_hs sub)) 0 (respond (h_grid (s_hs sub)) (evaluate_disp sub) (fun p => u (px p) (py p)))
         = write [n; m] 0 (respond [n; m] (evaluate_disp sub) (fun p => u (px p) (py p)))) by (intros; rewrite GG; reflexivity).
      rewrite (W (fun x y => - a_val (o_jac (hd_opt s)) x y)). exact PF.
    - exact (cli_free_field n m lx ly _ LX LY sub C0 (a_val (o_jac (hd_opt s))) (hw_modulus a) (hw_poisson a) eq_refl Z).
  Qed.

  (** Displacements and forces of every frame belong to each other, whatever
      the calculation: the half-space or the layer of the arguments, elastic or
      plastic, converged or not. *)
  Theorem C91_states : forall a ev r t n m lx ly, main a = (ev, r) -> hw_displacement a = None -> hw_netcdf a = true ->
    read a = Ret t -> scanned_as t n m lx ly -> physical a lx ly ->
    forall u f x l ar, In (u, f, x, l, ar) (frames ev) ->
      a_shape u = [n; m] /\ a_shape f = [n; m] /\ elastic_state a n m lx ly (pressures n m lx ly f) (a_val u).
  Proof.
    intros a ev r t n m lx ly H D NC Rd SC PH u f x l ar I.
    destruct (C67_output _ _ _ _ _ _ _ _ _ _ H D) as [[-> _]|(t' & sb & young & q & ss & Rd' & Sb & A & Ex & _ & Fr & _)]; [destruct I|].
    rewrite Rd in Rd'. injection Rd' as <-. rewrite Fr, NC in I. apply in_map_iff in I. destruct I as (s & E & I).
    unfold frame_of in E. injection E as <- <- <- <- <-.
    destruct (cli_calculation _ _ _ _ _ _ _ _ _ _ _ Rd Sb SC PH Ex s I) as (F & U & _ & E). auto.
  Qed.

  (** The pressure of every converged calculation is the prescribed one. *)
  Theorem C91_pressures : forall a ev r t n m lx ly l, main a = (ev, r) -> hw_displacement a = None -> ask a (Some l) ->
    read a = Ret t -> scanned_as t n m lx ly -> physical a lx ly ->
    exists ss, rows ev = map (row_of (lx * ly)) ss
      /\ (r = Ret tt -> List.length (rows ev) = List.length l)
      /\ forall i p s, nth_error l i = Some p -> nth_error ss i = Some s ->
         hd_force s = Some (p * (lx * ly)) /\ hd_off s = None
         /\ exists q, nth_error (rows ev) i = Some q /\ (o_success (hd_opt s) = true ->
             r_pressure q <> 0 /\ Rabs ((r_pressure q - p) / r_pressure q) < op_thermotol o).
  Proof.
    intros a ev r t n m lx ly l H D A Rd SC PH.
    destruct (C67_output _ _ _ _ _ _ _ _ _ _ H D) as [[-> (e & ->)]|(t' & sb & young & q & ss & Rd' & Sb & A' & Ex & Rw & _ & _ & Fin)].
    { exists []. split; [reflexivity|]. split; [discriminate|]. intros [|i] p s _ Q; discriminate. }
    rewrite Rd in Rd'. injection Rd' as <-. rewrite (C67_asked _ _ _ _ _ A' A D) in *.
    pose proof SC as (G & SZ & AR). pose proof PH as (LX & LY & _). rewrite SZ in Ex, Rw. cbn [fold_right] in Ex, Rw. rewrite Rmult_1_r in Ex, Rw.
    exists ss. split; [exact Rw|]. cbn [plan fst] in *. split.
    { intros Q. rewrite Rw, map_length, (proj1 (Fin Q)), map_length. reflexivity. }
    intros i p s Np Ns. pose proof (nth_error_In _ _ Ns) as Is.
    destruct (hx_pressures _ _ _ _ _ _ _ Ex i p s) as (O0 & F0 & _); [rewrite nth_error_map, Np; reflexivity|exact Ns|].
    split; [exact F0|]. split; [exact O0|]. exists (row_of (lx * ly) s). split; [rewrite Rw, nth_error_map, Ns; reflexivity|]. intros Su.
    cbn [row_of r_pressure]. unfold forces.
    destruct (hw_substrate_inv _ _ _ _ _ _ Sb G) as (_ & _ & N & M & _).
    pose proof (plastic_nonneg _ _ _ _ _ _ _ _ _ Rd SC PH N M) as NN.
    destruct (cli_shapes _ _ _ _ _ _ _ _ Sb G SZ) as (CS & n' & m' & SB & L1 & L2).
    pose proof (hx_solver _ _ _ _ _ _ _ Ex s Is) as S. rewrite O0, F0 in S.
    destruct (hw_solver_inv _ _ _ _ _ _ _ _ _ _ S) as (pt & _ & S'). destruct (solver_inv _ _ _ _ _ _ S') as (r' & E & R'). rewrite R' in *. clear R'.
    cbn [sa_force sa_offset sa_pentol] in E.
    pose proof (fun Q => CCG_Results2.force_control _ _ _ (p * (lx * ly)) Q (cfg_hardness _ _ _ _ _ _ _ NN) E Su) as K.
    specialize (K eq_refl). destruct K as [K1 K2].
    rewrite (shape_total _ _ _ _ _ _ _ _ _ _ _ _ CS SB L1 L2 N M) in K1, K2.
    set (z := asum (o_jac (result_object sb r'))) in *. set (w := lx * ly) in *. assert (W : 0 < w) by (apply Rmult_lt_0_compat; assumption).
    split.
    - intro Q. apply K1. apply (Rmult_eq_reg_r (/ w)); [|apply Rinv_neq_0_compat; lra]. rewrite Rmult_0_l. exact Q.
    - replace ((z / w - p) / (z / w)) with ((z - p * w) / z) by (field; lra). exact K2.
  Qed.

  (** ** The contact problem *)
  (** The frames of an elastic run on the periodic half-space: how far they are
      from the solution of the contact problem at the position of the frame.
      Pressures in units of the contact modulus. *)
  Definition relative (a : hw_args) (n m : nat) (lx ly : R) (f : arr) : field :=
    fun x y => pressures n m lx ly f x y / contact_modulus (hw_modulus a) (hw_poisson a).
  Definition half_space_run (a : hw_args) (n m : nat) : Prop :=
    hw_boundary a = "periodic"%string /\ hw_thickness a = None /\ (2 <= n)%nat /\ (2 <= m)%nat.

  Lemma frame_response : forall a ev r t n m lx ly, main a = (ev, r) -> hw_displacement a = None -> hw_netcdf a = true ->
    read a = Ret t -> scanned_as t n m lx ly -> physical a lx ly -> half_space_run a n m ->
    forall u f x l ar, In (u, f, x, l, ar) (frames ev) -> periodic_response [n; m] lx ly (relative a n m lx ly f) (a_val u).
  Proof.
    intros a ev r t n m lx ly H D NC Rd SC PH (B & T0 & N & M) u f x l ar I.
    destruct (C91_states _ _ _ _ _ _ _ _ H D NC Rd SC PH _ _ _ _ _ I) as (_ & _ & E & _). specialize (E B). rewrite T0 in E.
    destruct PH as (LX & LY & YO & NU & _). apply periodic_scaled; assumption.
  Qed.

  Theorem C91_distance : forall a ev r t n m lx ly, main a = (ev, r) -> hw_displacement a = None -> hw_netcdf a = true ->
    read a = Ret t -> scanned_as t n m lx ly -> physical a lx ly -> half_space_run a n m ->
    forall u f x l ar ps us h, In (u, f, x, l, ar) (frames ev) -> in_contact [n; m] lx ly h x ps us ->
    let p := relative a n m lx ly f in
    (forall eps tau, (forall i j, (i < n)%nat -> (j < m)%nat -> - tau <= p i j /\ - eps <= gap h x (a_val u) i j) ->
      let b := inner [n; m] p (gap h x (a_val u)) + tau * HalfSpace_Spec.total [n; m] (gap h x us) + eps * HalfSpace_Spec.total [n; m] ps in
      distance [n; m] p (a_val u) ps us <= b
      /\ INR n * INR m * (mean [n; m] p - mean [n; m] ps) ^ 2 <= uniform [n; m] lx ly * b)
    /\ (forall eps, 0 <= eps -> nearly_in_contact [n; m] h x p (a_val u) eps ->
      Rabs (sqrt (mean [n; m] p) - sqrt (mean [n; m] ps)) <= sqrt (uniform [n; m] lx ly * eps))
    /\ (nearly_in_contact [n; m] h x p (a_val u) 0 ->
      forall i j, (i < n)%nat -> (j < m)%nat -> p i j = ps i j /\ a_val u i j = us i j).
  Proof.
    intros a ev r t n m lx ly H D NC Rd SC PH HS u f x l ar ps us h I C p.
    pose proof (frame_response _ _ _ _ _ _ _ _ H D NC Rd SC PH HS _ _ _ _ _ I) as PR. fold p in PR.
    destruct PH as (X & Y & _). destruct HS as (_ & _ & N & M). split; [|split].
    - intros eps tau V b. pose proof (distance_exact n m lx ly h x p (a_val u) ps us eps tau C V) as Di. fold b in Di. split; [exact Di|].
      eapply Rle_trans; [apply (distance_mean n m lx ly N M X Y p (a_val u) ps us PR (proj1 C))|].
      apply Rmult_le_compat_l; [apply Rlt_le, k0_pos; assumption|exact Di].
    - intros eps PE V. exact (load_error n m lx ly N M X Y _ _ _ _ ps us eps PR C PE V).
    - intros V. apply (contact_unique n m lx ly N M X Y h x); [|exact C].
      split; [exact PR|]. intros i j Q. destruct (V i j Q) as (V1 & V2 & V3). split; [exact V1|]. split; [lra|].
      destruct (Rle_lt_or_eq_dec _ _ V1) as [P|P]; [specialize (V3 P)|rewrite <- P; ring].
      replace (gap h x (a_val u) i j) with 0 by lra. ring.
  Qed.

  (** ** Runs *)
  (** The solver finds a tolerance: it is given, or the positions are prescribed,
      or the (elastic) surface is not flat. *)
  Definition has_tolerance (a : hw_args) (t : scanned) (q : option (list R)) : Prop :=
    hw_pentol a <> None \/ q = None \/ (hw_hardness a = None /\ rms (sc_surface t) <> 0).

  Lemma tolerance_found : forall sf off pentol, pentol <> None \/ off <> None \/ (rms sf <> 0 /\ mean_nat (sf_grid sf) <> 0) ->
    exists p, chosen_tolerance rms sf off pentol = CCG_Model.Ok p.
  Proof.
    intros sf off pentol H. unfold chosen_tolerance, CCG_Model.choose_pentol. cbn [CCG_Model.a_pentol CCG_Model.a_offset CCG_Model.a_rms CCG_Model.a_mean_n].
    destruct pentol as [p|]; [eauto|]. match goal with |- context [if ?b then _ else _] => destruct b eqn:E end; [|eauto].
    destruct off as [x|]; [match goal with |- context [if ?b then _ else _] => destruct b end; eauto|].
    exfalso. destruct H as [H|[H|[H1 H2]]]; try (apply H; reflexivity). cbn in E. unfold CCG_Real.ROps in E. cbn in E.
    apply CCG_Real.Reqb_true in E.
    assert (Q : rms sf / (10 * mean_nat (sf_grid sf)) <> 0); [|apply Q; rewrite <- E; f_equal; ring].
    unfold Rdiv. apply Rmult_integral_contrapositive_currified; [exact H1|]. apply Rinv_neq_0_compat. lra.
  Qed.

  Theorem C91_runs : forall a t q n m lx ly, read a = Ret t -> sf_grid (sc_surface t) = [n; m] ->
    sc_sizes t = [lx; ly] -> (2 <= n)%nat -> (2 <= m)%nat ->
    hw_boundary a = "periodic"%string \/ hw_boundary a = "nonperiodic"%string -> possible_layer a -> hw_poisson a ^ 2 <> 1 ->
    hw_displacement a = None -> ask a q -> (1 <= hw_maxiter a)%nat -> hw_hardness a = None \/ q = None -> has_tolerance a t q ->
    exists ev, main a = (ev, Ret tt).
  Proof.
    intros a t q n m lx ly Rd G SZ Hn Hm B TH NU D A MI PL TO. assert (NZ : 1 - hw_poisson a ^ 2 <> 0) by lra.
    destruct (hw_substrate_ok a t n m lx ly G SZ Hn Hm B TH NZ) as (sb & young & Sb).
    destruct (hw_substrate_inv _ _ _ _ _ _ Sb G) as (SG & ST & _ & _ & CK).
    destruct (cli_shapes _ _ _ _ _ _ _ _ Sb G SZ) as (CS & n' & m' & SB & L1 & L2).
    unfold hw_main. rewrite Rd. cbn [bind]. rewrite Sb. cbn [bind fst snd]. rewrite hw_system_same by congruence. cbn [bind].
    apply (pressures_asked _ _ _ D) in A. rewrite A. cbn [bind]. rewrite D.
    set (allowed := fun off force : option R => match q with Some _ => True | None => off <> None /\ force = None end).
    assert (GO : surface_ok a n m (sc_surface t) (sc_surface t)) by (split; [exact G|reflexivity]).
    assert (SV : forall sf off force, surface_ok a n m (sc_surface t) sf -> allowed off force -> exists r n' m',
      hw_solver o rms sb sf (if is_plastic a then Some (sf_hardness sf * sf_area sf) else None) off force (hw_pentol a) (hw_maxiter a) = Ret r
      /\ a_shape (o_jac r) = [n; m] /\ a_shape (o_x r) = [n'; m'] /\ (n <= n')%nat /\ (m <= m')%nat).
    { intros sf off force [Gs Es] AL. unfold is_plastic in *.
      destruct (tolerance_found sf off (hw_pentol a)) as [p TF].
      { destruct TO as [TO|[TO|[TO1 TO2]]]; [left; exact TO| |].
        - right. left. unfold allowed in AL. rewrite TO in AL. apply AL.
        - right. right. rewrite TO1 in Es. rewrite (Es eq_refl). split; [exact TO2|]. rewrite G. unfold mean_nat. cbn [fold_right List.length].
          intro Z. apply Rmult_integral in Z. destruct Z as [Z|Z]; [apply (not_0_INR (n + (m + 0))); [lia|exact Z]|].
          apply (Rinv_neq_0_compat (INR 2)); [apply not_0_INR; lia|exact Z]. }
      rewrite (hw_solver_chosen _ _ _ _ _ _ _ _ _ _ TF).
      destruct (solver_returns o sb sf (if given (hw_hardness a) then Some (sf_hardness sf * sf_area sf) else None) (mkSa off force p (hw_maxiter a))) as [r' E].
      - right. rewrite SG. reflexivity.
      - exact MI.
      - cbn [sa_force]. destruct PL as [-> | PL]; [left; reflexivity|]. right. unfold allowed in AL. rewrite PL in AL. apply AL.
      - exists (result_object sb r'), n', m'. split; [exact E|]. cbn [result_object o_jac o_x a_shape]. auto. }
    destruct q as [l|]; cbn [fst snd]; apply hw_run_ok with (n := n) (m := m) (allowed := allowed) (sf0 := sc_surface t); auto; try lia.
    - intros c Ic. apply in_map_iff in Ic. destruct Ic as (p & <- & _). exact Logic.I.
    - intros c Ic. apply repeat_spec in Ic. subst c. intros x. split; [discriminate|reflexivity].
  Qed.

  (** Defect: a flat surface ([rms] zero) at a prescribed pressure without
      [--pentol].  The solver then computes its tolerance from the offset, which
      is None. *)
  Theorem C91_flat_refuted : forall a t l n m lx ly, read a = Ret t -> sf_grid (sc_surface t) = [n; m] ->
    sc_sizes t = [lx; ly] -> (2 <= n)%nat -> (2 <= m)%nat ->
    hw_boundary a = "periodic"%string \/ hw_boundary a = "nonperiodic"%string -> possible_layer a -> hw_poisson a ^ 2 <> 1 ->
    hw_displacement a = None -> ask a (Some l) -> l <> [] -> hw_pentol a = None -> rms (sc_surface t) = 0 ->
    main a = ([], Exc TypeErr).
  Proof.
    intros a t l n m lx ly Rd G SZ Hn Hm B TH NU D A NE PT R0. assert (NZ : 1 - hw_poisson a ^ 2 <> 0) by lra.
    destruct (hw_substrate_ok a t n m lx ly G SZ Hn Hm B TH NZ) as (sb & young & Sb).
    destruct (hw_substrate_inv _ _ _ _ _ _ Sb G) as (SG & ST & _ & _ & CK).
    unfold hw_main. rewrite Rd. cbn [bind]. rewrite Sb. cbn [bind fst snd]. rewrite hw_system_same by congruence. cbn [bind].
    apply (pressures_asked _ _ _ D) in A. rewrite A. cbn [bind]. destruct l as [|p l]; [contradiction|]. cbn [map hw_run hw_step].
    unfold pressure_step, hw_proxy, proxy.
    assert (E : forall h force maxiter, hw_solver o rms sb (sc_surface t) h None force (hw_pentol a) maxiter = Exc TypeErr).
    { intros h force maxiter. rewrite (hw_solver_raises _ _ _ _ _ _ _ _ _ CCG_Model.TypeError); [reflexivity|].
      unfold chosen_tolerance, CCG_Model.choose_pentol. cbn [CCG_Model.a_pentol CCG_Model.a_offset CCG_Model.a_rms CCG_Model.a_mean_n]. rewrite PT, R0.
      cbn. unfold Rdiv. rewrite Rmult_0_l. match goal with |- (if ?b then _ else _) = _ => replace b with true; [reflexivity|] end.
      symmetry. apply CCG_Real.Reqb_true. reflexivity. }
    unfold plastic_minimize_proxy, minimize_proxy, mbind, upd, lift. cbn [sa_offset sa_force sa_maxiter].
    destruct (is_plastic a); rewrite E; reflexivity.
  Qed.

  (** ** The NetCDF file *)
  (** After a run that ends normally the file has a frame for every calculation;
      the numbers that are read back from it are those of an elastic state of the
      substrate of the arguments, and of the prescribed pressures. *)
  Theorem C91_file : forall a ev t n m lx ly fn k, main a = (ev, Ret tt) -> hw_displacement a = None -> hw_netcdf a = true ->
    read a = Ret t -> scanned_as t n m lx ly -> physical a lx ly ->
    exists q k', ask a q /\ write_file ov subnormal fn [n; m] (frames ev) k = (k', Ret tt)
      /\ (forall fn', fn' <> fn -> assoc fn' k' = assoc fn' k)
      /\ forall db mode, mode <> Write -> exists c, open_container fn 0 db mode k' = (k', Ret c)
         /\ length_of c = Ret (List.length (fst (plan q)))
         /\ forall i, (i < List.length (fst (plan q)))%nat -> exists u f x p,
              reads_map c (Z.of_nat i) "displacements" n m u /\ reads_map c (Z.of_nat i) "forces" n m f
              /\ reads_number c (Z.of_nat i) "displacement" x /\ reads_number c (Z.of_nat i) "load" p
              /\ reads_number c (Z.of_nat i) "area" (contact_points f / INR (n * m))
              /\ elastic_state a n m lx ly (pressures n m lx ly f) (a_val u)
              /\ (forall l, q = Some l -> nth_error l i = Some p)
              /\ (q = None -> p = asum f / (lx * ly)).
  Proof.
    intros a ev t n m lx ly fn k H D NC Rd SC PH. pose proof SC as (G & SZ & AR).
    destruct (C90_file ov subnormal float_of int_of detrend load file_unit (hw_solver o rms) active a ev t n m fn k H D NC Rd G
      (fun sb young Q => cli_fits o rms a t sb young n m lx ly Q G SZ)) as (sb & young & q & ss & k' & Sb & A & Ex & Ln & W & Ot & Rdr).
    rewrite SZ in Ex. cbn [fold_right] in Ex. rewrite Rmult_1_r in Ex.
    exists q, k'. split; [exact A|]. split; [exact W|]. split; [exact Ot|]. intros db mode Mo. destruct (Rdr db mode Mo) as (c & Op & L & Hd).
    exists c. split; [exact Op|]. split; [rewrite <- Ln; exact L|]. intros i Hi. rewrite <- Ln in Hi.
    destruct (nth_error ss i) as [s|] eqn:Ns; [|apply nth_error_None in Ns; lia]. pose proof (nth_error_In _ _ Ns) as Is.
    destruct (Hd i s Ns) as (H1 & H2 & H3 & H4 & H5). exists (hd_u s), (forces s), (hd_position s), (hd_load s).
    split; [exact H1|]. split; [exact H2|]. split; [exact H3|]. split; [exact H4|]. split; [exact H5|].
    split; [apply (cli_calculation _ _ _ _ _ _ _ _ _ _ _ Rd Sb SC PH Ex s Is)|]. split.
    - intros l ->. cbn [plan fst] in *. rewrite map_length in Ln. destruct (nth_error l i) as [p|] eqn:Np; [|apply nth_error_None in Np; lia].
      destruct (hx_pressures _ _ _ _ _ _ _ Ex i p s) as (_ & _ & _ & Q); [rewrite nth_error_map, Np; reflexivity|exact Ns|]. rewrite Q. reflexivity.
    - intros ->. cbn [plan fst] in *.
      destruct (hx_next _ _ _ _ _ _ _ Ex (fun c0 I0 => repeat_spec _ _ _ I0) i s Ns) as (_ & _ & Q & _). exact Q.
  Qed.
End Theorems.
Print Assumptions C91_states.
Print Assumptions C91_pressures.
Print Assumptions C91_distance.
Print Assumptions C91_runs.
Print Assumptions C91_flat_refuted.
Print Assumptions C91_file.

(** ** Runs that meet the hypotheses *)
Notation ex_cli z := (hw_main ex_float ex_int ex_detrend (ex_load z) (Some "m"%string) (hw_solver usual (fun _ => 0)) ex_active).

Lemma ex_scanned : forall z, scanned_as (mkScan (ex_surface z) [2; 2] true) 2 2 2 2.
Proof. intros z. split; [reflexivity|]. split; [reflexivity|]. unfold cell_area. cbn. field. Qed.
Lemma ex_physical : forall b nu h p, -1 < nu < 1 -> (forall x, h = Some x -> 0 <= x) -> physical (ex_hw b nu h p) 2 2.
Proof. intros b nu h p NU H. unfold physical. cbn. repeat split; try lra; try exact H; discriminate. Qed.

Lemma ex_runs : forall z b nu h p t q, read_surface ex_detrend (ex_load z) (Some "m"%string) (ex_hw b nu h p) = Ret t ->
  sf_grid (sc_surface t) = [2; 2]%nat -> sc_sizes t = [2; 2] -> b = "periodic"%string \/ b = "nonperiodic"%string -> nu ^ 2 <> 1 ->
  asked ex_float ex_int (ex_hw b nu h p) q -> h = None \/ q = None -> exists ev, ex_cli z (ex_hw b nu h p) = (ev, Ret tt).
Proof.
  intros z b nu h p t q Rd G SZ B NU A PL.
  eapply C91_runs with (n := 2%nat) (m := 2%nat) (lx := 2) (ly := 2); try exact Rd; try exact G; try exact SZ; try exact B; try exact NU; try exact A; try exact PL;
    try reflexivity; try lia; try (left; reflexivity).
  - change (hw_maxiter (ex_hw b nu h p)) with 10%nat. lia.
  - left. unfold ex_hw. cbn [hw_pentol]. intro Q. discriminate Q.
Qed.

(** Both boundary conditions, with prescribed pressures and in the automatic
    mode, elastic and (automatic mode) plastic. *)
Example C91_nonvacuous : forall b p h, b = "periodic"%string \/ b = "nonperiodic"%string ->
  (p = None /\ h = Some 1) \/ (p = None /\ h = None) \/ (p = Some "1,2,3"%string /\ h = None) ->
  physical (ex_hw b (1 / 2) h p) 2 2
  /\ exists t ev, read_surface ex_detrend (ex_load 1) (Some "m"%string) (ex_hw b (1 / 2) h p) = Ret t /\ scanned_as t 2 2 2 2
     /\ ex_cli 1 (ex_hw b (1 / 2) h p) = (ev, Ret tt)
     /\ List.length (frames ev) = match p with Some _ => 3%nat | None => 20%nat end.
Proof.
  intros b p h B C. split.
  { apply ex_physical; [lra|]. intros x E. destruct C as [[_ ->]|[[_ ->]|[_ ->]]]; try discriminate. injection E as <-. lra. }
  assert (T : exists t, read_surface ex_detrend (ex_load 1) (Some "m"%string) (ex_hw b (1 / 2) h p) = Ret t /\ scanned_as t 2 2 2 2).
  { destruct C as [[-> ->]|[[-> ->]|[-> ->]]]; eexists; (split; [reflexivity|]); apply (ex_scanned 1). }
  destruct T as (t & Rd & SC). exists t.
  assert (A : exists q, asked ex_float ex_int (ex_hw b (1 / 2) h p) q
      /\ List.length (fst (plan q)) = match p with Some _ => 3%nat | None => 20%nat end /\ (h = None \/ q = None)).
  { destruct C as [[-> ->]|[[-> ->]|[-> ->]]]; eexists; (split; [apply ex_asked || apply ex_asked_range|]); (split; [reflexivity|]); auto. }
  destruct A as (q & A & L & PL). pose proof SC as (G & SZ & _).
  pose proof (ex_runs 1 b (1 / 2) h p t q Rd G SZ B ltac:(lra) A PL) as [ev E].
  exists ev. split; [exact Rd|]. split; [exact SC|]. split; [exact E|].
  destruct (C67_output _ _ _ _ _ _ _ _ _ _ E eq_refl) as [[_ [e Q]]|(t' & sb & young & o' & ss & _ & _ & A' & _ & _ & Fr & _ & Fin)]; [discriminate|].
  rewrite (C67_asked _ _ _ _ _ A' A eq_refl) in *. rewrite Fr. cbn [ex_hw hw_netcdf]. rewrite map_length, (proj1 (Fin eq_refl)). exact L.
Qed.

(** A layer of thickness one. *)
Definition ex_layer (p : option string) : hw_args :=
  mkHw None "periodic" 1 (1 / 3) (Some 1) None 10 None p None None None None (Some 1)
    (Some "c"%string) (Some "p"%string) (Some "u"%string) (Some "g"%string) true.
Example C91_nonvacuous_layer : physical (ex_layer None) 2 2 /\ possible_layer (ex_layer None)
  /\ exists t ev, read_surface ex_detrend (ex_load 1) (Some "m"%string) (ex_layer None) = Ret t /\ scanned_as t 2 2 2 2
     /\ ex_cli 1 (ex_layer None) = (ev, Ret tt).
Proof.
  assert (PL : possible_layer (ex_layer None)).
  { right. split; [reflexivity|]. exists 1. split; [reflexivity|]. cbn. lra. }
  split; [unfold physical; cbn; repeat split; try lra; try discriminate; intros; injection H as <-; lra|]. split; [exact PL|].
  assert (T : exists t, read_surface ex_detrend (ex_load 1) (Some "m"%string) (ex_layer None) = Ret t /\ scanned_as t 2 2 2 2).
  { eexists. split; [reflexivity|]. apply (ex_scanned 1). }
  destruct T as (t & Rd & SC). pose proof SC as (G & SZ & _). exists t.
  assert (E : exists ev, ex_cli 1 (ex_layer None) = (ev, Ret tt)).
  { eapply C91_runs with (n := 2%nat) (m := 2%nat) (lx := 2) (ly := 2) (q := None); try exact Rd; try exact G; try exact SZ; try exact PL;
      try reflexivity; try lia; [left; reflexivity|cbn; lra|constructor; reflexivity|cbn; lia|left; reflexivity|right; left; reflexivity]. }
  destruct E as [ev E]. exists ev. split; [exact Rd|]. split; [exact SC|exact E].
Qed.

(** A flat surface pressed against the periodic half-space of contact modulus
    one: the calculation converges, and its frame is the solution of the contact
    problem. *)
Lemma ex_k0 : uniform_stiffness [2; 2]%nat 2 2 = PI / 2.
Proof.
  unfold uniform_stiffness, wavenumber. cbn [gx gy nth Nat.min Nat.sub INR].
  replace ((1 / 2) ^ 2 + (0 / 2) ^ 2) with ((1 / 2) ^ 2) by field. replace ((0 / 2) ^ 2 + (1 / 2) ^ 2) with ((1 / 2) ^ 2) by field.
  rewrite sqrt_pow2 by lra. lra.
Qed.
Example C91_nonvacuous_converged : exists ev u f q, ex_cli 0 (ex_hw "periodic" 0 None (Some "1"%string)) = (ev, Ret tt)
  /\ half_space_run (ex_hw "periodic" 0 None (Some "1"%string)) 2 2
  /\ frames ev = [(u, f, 2 / PI, 1, 1)] /\ rows ev = [q] /\ r_pressure q = 1
  /\ (forall i j, (i < 2)%nat -> (j < 2)%nat -> a_val f i j = 1 /\ a_val u i j = 2 / PI)
  /\ in_contact [2; 2]%nat 2 2 (fun _ _ => 0) (2 / PI) (relative (ex_hw "periodic" 0 None (Some "1"%string)) 2 2 2 2 f) (a_val u).
Proof.
  set (a := ex_hw "periodic" 0 None (Some "1"%string)). set (t := mkScan (ex_surface 0) [2; 2] true).
  assert (Rd : read_surface ex_detrend (ex_load 0) (Some "m"%string) a = Ret t) by reflexivity.
  assert (A : asked ex_float ex_int a (Some [1])) by (apply (AskedOne _ _ _ "1"); [reflexivity|cbn; repeat split; discriminate|reflexivity]).
  assert (NU : 0 ^ 2 <> 1) by lra.
  assert (RUN : exists ev, ex_cli 0 a = (ev, Ret tt))
    by exact (ex_runs 0 "periodic" 0 None (Some "1"%string) t (Some [1]) Rd eq_refl eq_refl (or_introl eq_refl) NU A (or_introl eq_refl)).
  destruct RUN as [ev E].
  assert (PH : physical a 2 2) by (apply ex_physical; [lra|discriminate]).
  assert (HR : half_space_run a 2 2) by (repeat split; lia).
  destruct (C67_output _ _ _ _ _ _ _ _ _ _ E eq_refl) as [[_ [e Q]]|(t' & sb & young & o' & ss & Rd' & Sb & A' & Ex & Rw & Fr & _ & Fin)]; [discriminate|].
  rewrite Rd in Rd'. injection Rd' as <-. rewrite (C67_asked _ _ _ _ _ A' A eq_refl) in *. destruct (Fin eq_refl) as [Ln _]. clear Fin.
  cbn [plan fst map List.length] in Ln, Ex. destruct ss as [|s [|? ?]]; try discriminate Ln. clear Ln.
  cbn [sc_sizes t fold_right] in Ex, Rw. change (hw_netcdf a) with true in Fr. cbn [map] in Fr, Rw.
  destruct (hx_pressures _ _ _ _ _ _ _ Ex 0%nat 1 s eq_refl eq_refl) as (O0 & F0 & P0 & L0).
  destruct (hx_elastic _ _ _ _ _ _ _ Ex eq_refl s (or_introl eq_refl)) as (B0 & _).
  pose proof (hx_solver _ _ _ _ _ _ _ Ex s (or_introl eq_refl)) as S. rewrite O0, F0, B0 in S. change (hw_hardness a) with (@None R) in S. cbv iota in S.
  destruct (cli_calculation usual (fun _ => 0) ex_detrend (ex_load 0) (Some "m"%string) a t sb young _ _ _ 2 2 2 2 Rd Sb (ex_scanned 0) PH Ex s (or_introl eq_refl)) as (J & U & UV & _).
  destruct (substrate_cases a t sb young 2 2 2 2 Sb eq_refl eq_refl) as [(_ & hs & CO & SB)|(Q & _)]; [|discriminate].
  assert (CO' : construct (Contact_Results.periodic_args [2; 2]%nat [2; 2]) = Ret hs) by exact CO.
  destruct (cli_area 2 2 2 2 1 0 None ltac:(lra) ltac:(lra) hs CO) as [AE _].
  assert (AE1 : area_per_pt (s_hs hs) = 1) by (rewrite AE; unfold cell_area; cbn; field).
  set (tol := tolerance (fun _ => 0) (mkCm (ex_surface 1) [2; 2] true false (Some "periodic"%string) None None None None 10)).
  assert (TP : 0 < tol <= / 10 ^ 12).
  { unfold tol, tolerance. destruct (Rle_dec _ _) as [_|N]; [lra|]. exfalso. apply N. unfold Rdiv. rewrite Rmult_0_l. lra. }
  pose proof PI_RGT_0 as PP. pose proof PI_4 as P4.
  change (hw_pentol a) with (Some tol) in S. rewrite hw_solver_given, SB in S. change (hw_maxiter a) with 10%nat in S.
  destruct (solver_flat usual [2; 2]%nat [2; 2] hs (sc_surface t) (mkSa None (Some (1 * (2 * (2 * 1)))) tol 10) 1 0 CO') as (r & S2 & Su & Of & V);
    try reflexivity; try lra.
  - intros x [<-|[<-|[]]]; lra.
  - unfold cell_size. cbn [List.length nth Nat.min Nat.sub]. rewrite ex_k0. lra.
  - cbn [sa_pentol]. unfold tolerant. cbn. lra.
  - cbn [sa_force]. rewrite AE1. f_equal. cbn. ring.
  - cbn [sa_maxiter]. lia.
  - intros i j _. cbn. ring.
  - unfold cell_size. cbn [List.length nth Nat.min Nat.sub sa_pentol]. rewrite ex_k0, Rmax_left by lra.
    assert (Q : / 4 <= 1 / (PI / 2)). { replace (1 / (PI / 2)) with (2 * / PI) by (field; lra). assert (/ 4 <= / PI) by (apply Rinv_le_contravar; lra). lra. }
    rewrite Rabs_pos_eq by lra. lra.
  - rewrite S in S2. injection S2 as S2.
    unfold cell_size in Of, V. cbn [List.length nth Nat.min Nat.sub] in Of, V. rewrite ex_k0, ?AE1 in Of, V.
    assert (K : 1 / (PI / 2) = 2 / PI) by (field; lra). rewrite K in Of, V.
    assert (VF : forall i j, (i < 2)%nat -> (j < 2)%nat -> a_val (forces s) i j = 1 /\ a_val (hd_u s) i j = 2 / PI).
    { intros i j Hi Hj. destruct (V i j (conj Hi Hj)) as [V1 V2]. rewrite UV. unfold forces. rewrite S2, V1, V2, AE1. split; ring. }
    assert (FS : forces s = mkArr [2; 2]%nat (a_val (forces s))) by (destruct (forces s) as [sh v]; cbn [a_shape] in J; rewrite J; reflexivity).
    assert (SUM : asum (forces s) = 4).
    { rewrite FS, asum_grid by (repeat split; try (cbn; lia); right; reflexivity). unfold HalfSpace_Spec.total.
      rewrite (Rsum2_ext _ _ _ (fun _ _ => 1)) by (intros i j Hi Hj; apply (VF i j Hi Hj)). unfold Rsum2, Rsum. cbn. ring. }
    assert (CP : contact_points (forces s) = 4).
    { unfold contact_points, count_positive. rewrite FS. unfold amap. cbn [a_shape a_val].
      rewrite asum_grid by (repeat split; try (cbn; lia); right; reflexivity). unfold HalfSpace_Spec.total.
      rewrite (Rsum2_ext _ _ _ (fun _ _ => 1)) by (intros i j Hi Hj; rewrite (proj1 (VF i j Hi Hj)); destruct (Rlt_dec 0 1); lra).
      unfold Rsum2, Rsum. cbn. ring. }
    exists ev, (hd_u s), (forces s), (row_of 4 s). split; [exact E|]. split; [exact HR|]. split; [|split; [|split; [|split]]].
    + rewrite Fr. unfold frame_of. rewrite P0, L0, S2, Of, CP, B0.
      replace (2 / PI - 0) with (2 / PI) by ring.
      replace (4 / INR (Systems_Model.size (sf_grid (sc_surface t)))) with 1 by (cbn; field). reflexivity.
    + rewrite Rw. replace (2 * (2 * 1)) with 4 by ring. reflexivity.
    + cbn [row_of r_pressure]. rewrite SUM. field.
    + exact VF.
    + split.
      * apply (frame_response usual (fun _ => 0) ex_float ex_int ex_detrend (ex_load 0) (Some "m"%string) ex_active a ev (Ret tt) t 2 2 2 2
          E eq_refl eq_refl Rd (ex_scanned 0) PH HR (hd_u s) (forces s) (hd_position s) (hd_load s)
          (contact_points (forces s) / INR (Systems_Model.size (sf_grid (hd_before s))))).
        rewrite Fr. left. reflexivity.
      * intros i j [Hi Hj]. destruct (VF i j Hi Hj) as [V1 V2]. unfold relative, pressures, gap, contact_modulus, cell_area. rewrite V1, V2. cbn.
        split; [|split; [lra|ring]]. apply Rlt_le. repeat apply Rdiv_lt_0_compat; lra.
Qed.

(** The defect on a flat surface, with the real rms height; the same arguments
    without a pressure, or a surface that is not flat, or [--pentol], run. *)
Definition ex_untold (p : option string) : hw_args :=
  mkHw None "periodic" 1 0 None None 10 None p None None None None None
    (Some "c"%string) (Some "p"%string) (Some "u"%string) (Some "g"%string) true.
Lemma ex_deviation : forall z, deviation (heights (ex_surface z)) = Rabs z * sqrt (1 / 2).
Proof.
  intros z. unfold deviation. replace (_ / INR _) with (z ^ 2 * (1 / 2)).
  - rewrite sqrt_mult by (try lra; apply pow2_ge_0). rewrite <- Rsqr_pow2, sqrt_Rsqr_abs. reflexivity.
  - unfold amean, asum, amap, heights, ex_surface. cbn. field.
Qed.
Example C91_nonvacuous_flat :
  let cli := fun z => hw_main ex_float ex_int ex_detrend (ex_load z) (Some "m"%string)
    (hw_solver usual (fun sf => deviation (heights sf))) ex_active in
  cli 0 (ex_untold (Some "1"%string)) = ([], Exc TypeErr)
  /\ (exists ev, cli 0 (ex_untold None) = (ev, Ret tt)) /\ (exists ev, cli 1 (ex_untold (Some "1"%string)) = (ev, Ret tt)).
Proof.
  intros cli.
  assert (A : asked ex_float ex_int (ex_untold (Some "1"%string)) (Some [1]))
    by (apply (AskedOne _ _ _ "1"); [reflexivity|cbn; repeat split; discriminate|reflexivity]).
  split; [|split].
  - apply (C91_flat_refuted _ _ _ _ _ _ _ _ _ (mkScan (ex_surface 0) [2; 2] true) [1] 2 2 2 2); try reflexivity; try lia; try (cbn; lra);
      try discriminate; [left; reflexivity|left; reflexivity|exact A|].
    cbn [sc_surface]. rewrite ex_deviation, Rabs_R0. ring.
  - apply (C91_runs _ _ _ _ _ _ _ _ _ (mkScan (ex_surface 0) [2; 2] true) None 2 2 2 2); try reflexivity; try lia; try (cbn; lra); try (cbn; lia);
      [left; reflexivity|left; reflexivity|constructor; reflexivity|right; reflexivity|right; left; reflexivity].
  - apply (C91_runs _ _ _ _ _ _ _ _ _ (mkScan (ex_surface 1) [2; 2] true) (Some [1]) 2 2 2 2); try reflexivity; try lia; try (cbn; lra); try (cbn; lia);
      [left; reflexivity|left; reflexivity|exact A|left; reflexivity|right; right; split; [reflexivity|]].
    cbn [sc_surface]. rewrite ex_deviation, Rabs_R1, Rmult_1_l. apply Rgt_not_eq. apply sqrt_lt_R0. lra.
Qed.
