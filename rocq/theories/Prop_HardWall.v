(** * Properties of the command line (C67)

    [float_of], [int_of], [detrend], [load] (the reader of the topography
    file), [solver] and [active] are arbitrary; [hw_main] gives everything that
    is written to the log, the NetCDF file and the maps, in order. *)
From Coq Require Import Reals ZArith Lia Lra List Arith Bool String Ascii FunctionalExtensionality.
From Verif Require Import Py FFT_Base HalfSpace_Model HalfSpace_Proofs Free_Model Free_Proofs Systems_Model Systems_Proofs Factory_Model
  Pipeline_Model Pipeline_Spec Pipeline_Proofs Pipeline_Sort Pipeline_Results Pipeline_More Pipeline_Out Prop_Pipeline
  HardWall_Model HardWall_Spec HardWall_Proofs HardWall_Results.
From Coq Require Import List.
Import ListNotations.
Local Open Scope R_scope.

Section Theorems.
  Variable float_of : string -> res R.
  Variable int_of : string -> res Z.
  Variable detrend : string -> surface -> res surface.
  Variable load : option string -> res scanned.
  Variable file_unit : option string.
  Variable solver : substrate -> surface -> option R -> option R -> option R -> option R -> nat -> res oresult.
  Variable active : surface -> option R -> option R -> zone.
  Notation main := (hw_main float_of int_of detrend load file_unit solver active).
  Notation read := (read_surface detrend load file_unit).
  Notation ask := (asked float_of int_of).
  Notation unit_of a := (unit_name a file_unit).

  Lemma unit_is : forall a, surface_unit a file_unit = unit_name a file_unit.
  Proof. intros a. unfold surface_unit, given_unit, unit_name. destruct (hw_size_unit a), file_unit; reflexivity. Qed.

  (** Whatever happens, what is written belongs to the finished calculations,
      which are those asked for, in order: one line in the log and one NetCDF
      frame each; every map has the name and the contents of a calculation.
      If the program ends normally, nothing is missing. *)
  Theorem C67_output : forall a ev r, main a = (ev, r) -> hw_displacement a = None ->
    (ev = [] /\ exists e, r = Exc e)
    \/ exists t sb young o ss, read a = Ret t /\ hw_substrate a t = Ret (sb, young) /\ ask a o
       /\ hw_explains solver a sb (fold_right Rmult 1 (sc_sizes t)) (sc_surface t) (fst (plan o)) ss
       /\ rows ev = map (row_of (fold_right Rmult 1 (sc_sizes t))) ss
       /\ frames ev = (if hw_netcdf a then map frame_of ss else [])
       /\ maps_sound active (unit_of a) (snd (plan o)) a ss ev
       /\ (r = Ret tt -> List.length ss = List.length (fst (plan o))
           /\ maps_complete active (unit_of a) (snd (plan o)) a ss ev).
  Proof.
    intros a ev r H D. rewrite <- unit_is. destruct (main_run _ _ _ _ _ _ _ _ _ _ H D) as [X|(t & sb & young & y & o & Rd & Sb & Sy & A & Rn)]; [left; exact X|right].
    destruct (run_ret _ _ _ _ _ _ _ _ _ _ _ _ _ _ Rn) as (ss & Ch & Ln & Rw & Fr & Fs & Fc).
    exists t, sb, young, o, ss. split; [exact Rd|]. split; [exact Sb|]. split; [exact A|].
    split; [apply chain_explains; exact Ch|]. split; [exact Rw|]. split; [exact Fr|]. split.
    - intros n m HI. destruct (Fs n m HI) as (k & fn & j & s & O & J & N & M). exists k, fn, j, s. auto.
    - intros Q. split; [apply Ln; exact Q|]. intros k fn i s O N. apply (Fc i s k N (or_intror Q) fn O).
  Qed.

  (** The values asked for are determined by the arguments. *)
  Theorem C67_asked : forall a o o', ask a o -> ask a o' -> hw_displacement a = None -> o = o'.
  Proof.
    intros a o o' A A' D. apply (pressures_asked _ _ _ D) in A, A'. congruence.
  Qed.

  (** With a solver that returns arrays of the right shape the program ends
      normally. *)
  Theorem C67_accepts : forall a t o n m lx ly, well_shaped solver -> read a = Ret t -> sf_grid (sc_surface t) = [n; m] ->
    sc_sizes t = [lx; ly] -> (2 <= n)%nat -> (2 <= m)%nat ->
    hw_boundary a = "periodic"%string \/ hw_boundary a = "nonperiodic"%string -> possible_layer a -> hw_poisson a ^ 2 <> 1 ->
    hw_displacement a = None -> ask a o -> exists ev, main a = (ev, Ret tt).
  Proof.
    intros a t o n m lx ly SV Rd G SZ Hn Hm B TH NU D A. assert (NZ : 1 - hw_poisson a ^ 2 <> 0) by lra.
    destruct (hw_substrate_ok a t n m lx ly G SZ Hn Hm B TH NZ) as (sb & young & Sb).
    destruct (hw_substrate_inv _ _ _ _ _ _ Sb G) as (SG & ST & _ & _ & CK).
    unfold hw_main. rewrite Rd. cbn [bind]. rewrite Sb. cbn [bind fst snd]. rewrite hw_system_same by congruence. cbn [bind].
    apply (pressures_asked _ _ _ D) in A. rewrite A. cbn [bind]. rewrite D.
    assert (AL : forall c, call_ok (sc_sizes t) (fun _ _ => True) c) by (intros [p|]; cbn; auto).
    assert (GO : surface_ok a n m (sc_surface t) (sc_surface t)) by (split; [exact G|reflexivity]).
    destruct o as [l|]; cbn [fst snd]; apply hw_run_ok with (n := n) (m := m) (allowed := fun _ _ => True) (sf0 := sc_surface t); auto; try lia;
      intros sf off force [Gs _] _; apply SV; exact Gs.
  Qed.

  (** Wrong arguments: both [--pressure] and [--displacement], or a pressure
      that is neither a number nor a range.  Nothing is written. *)
  Theorem C67_rejects : forall a s, hw_pressure a = Some s ->
    (forall x, split_comma s <> [x]) -> (forall x y z, split_comma s <> [x; y; z]) ->
    exists e, main a = ([], Exc e).
  Proof.
    intros a s P N1 N3. unfold hw_main.
    destruct (read a) as [t|e]; [|eexists; reflexivity]. cbn [bind].
    destruct (hw_substrate a t) as [[sb young]|e]; [|eexists; reflexivity]. cbn [bind fst snd].
    destruct (hw_system a t sb) as [y|e]; [|eexists; reflexivity]. cbn [bind].
    assert (X : exists e, pressures_of float_of int_of a = Exc e).
    { unfold pressures_of. rewrite P. destruct (hw_pressure_file a), (given (hw_displacement a)); try (eexists; reflexivity);
        (destruct (split_comma s) as [|x0 [|x1 [|x2 [|? ?]]]]; try (eexists; reflexivity);
          [exfalso; eapply N1; reflexivity|exfalso; eapply N3; reflexivity]). }
    destruct X as [e ->]. eexists. reflexivity.
  Qed.

  (** In the automatic mode of an elastic run, the position of every
      calculation halves the largest step of the logarithm of the area that is
      left by the earlier ones (see [chosen]). *)
  Theorem C67_schedule : forall a ev r t, main a = (ev, r) -> hw_displacement a = None -> ask a None -> hw_hardness a = None ->
    read a = Ret t -> hw_netcdf a = true -> (0 < size (sf_grid (sc_surface t)))%nat ->
    (List.length (frames ev) <= 20)%nat
    /\ (r = Ret tt -> List.length (frames ev) = 20%nat)
    /\ exists top bot, (frames ev <> [] -> is_max (heights (sc_surface t)) top /\ is_min (heights (sc_surface t)) bot)
    /\ forall i u f x l ar, nth_error (frames ev) i = Some (u, f, x, l, ar) ->
       l = asum f / fold_right Rmult 1 (sc_sizes t)
       /\ chosen top (amean (heights (sc_surface t))) bot (size (sf_grid (sc_surface t)))
            (map (fun e => match e with (_, _, x, _, ar) => (x, ar) end) (firstn i (frames ev))) x.
  Proof.
    intros a ev r t H D A EL Rd NC NP. destruct (C67_output a ev r H D) as [[-> [e ->]]|(t' & sb & young & o & ss & Rd' & _ & A' & X & _ & Fr & _ & Fin)].
    { split; [cbn; lia|]. split; [discriminate|]. exists 0, 0. split; [intros Q; exfalso; apply Q; reflexivity|]. intros [|i] u f x l ar Q; discriminate. }
    rewrite Rd in Rd'. injection Rd' as <-. rewrite NC in Fr. rewrite (C67_asked a o None A' A D) in *. cbn [plan fst snd] in *.
    assert (NX : forall c, In c (repeat Next 20) -> c = Next) by (intros c Q; apply repeat_spec in Q; exact Q).
    assert (L20 : (List.length ss <= 20)%nat).
    { destruct (Nat.le_gt_cases (List.length ss) 20) as [Q|Q]; [exact Q|]. exfalso.
      destruct (main_run _ _ _ _ _ _ _ _ _ _ H D) as [[-> _]|(t' & sb' & young' & y & o' & Rd' & Sb & Sy & A'' & Rn)].
      - destruct ss; [cbn in Q; lia|discriminate Fr].
      - destruct (run_ret _ _ _ _ _ _ _ _ _ _ _ _ _ _ Rn) as (ss' & Ch & _ & _ & Fr' & _). rewrite NC in Fr'.
        rewrite (C67_asked a o' None A'' A D) in Ch. cbn [plan fst snd] in Ch.
        assert (List.length ss' = List.length ss) by (rewrite <- (map_length frame_of ss'), <- Fr', Fr, map_length; reflexivity).
        assert (G : forall cs h sf ss0, chain solver sb' (sc_sizes t') a cs h sf ss0 -> (List.length ss0 <= List.length cs)%nat).
        { induction cs as [|c cs IH]; intros h sf [|s0 ss0] Q0; cbn [List.length]; try lia; [destruct Q0|].
          destruct Q0 as (_ & _ & _ & Q0). apply IH in Q0. lia. }
        apply G in Ch. rewrite repeat_length in Ch. lia. }
    rewrite Fr, map_length. split; [exact L20|]. split; [intros Q; destruct (Fin Q) as [Q' _]; rewrite Q'; reflexivity|].
    pose proof (hx_elastic _ _ _ _ _ _ _ X EL) as E. pose proof (hx_next _ _ _ _ _ _ _ X NX) as N.
    destruct ss as [|s0 ss0].
    { exists 0, 0. split; [intros Q; exfalso; apply Q; reflexivity|]. intros [|i] u f x l ar Q; discriminate. }
    destruct (N 0%nat s0 eq_refl) as (_ & _ & _ & top & bot & TX & BX & _). destruct (E s0 (or_introl eq_refl)) as [E0 _]. rewrite E0 in TX, BX.
    exists top, bot. split; [intros _; split; [exact TX|exact BX]|]. intros i u f x l ar Q.
    rewrite nth_error_map in Q. destruct (nth_error (s0 :: ss0) i) as [s|] eqn:Ns; [|discriminate]. injection Q as <- <- <- <- <-.
    destruct (N i s Ns) as (_ & _ & LO & top' & bot' & TX' & BX' & C). split; [exact LO|].
    destruct (E s (nth_error_In _ _ Ns)) as [Es _]. rewrite Es in TX', BX', C.
    assert (UM : forall b m m', is_max b m -> is_max b m' -> m = m').
    { intros b m m' [(k & K & ->) M1] [(k' & K' & ->) M2]. apply Rle_antisym; auto. }
    assert (UN : forall b m m', is_min b m -> is_min b m' -> m = m').
    { intros b m m' [(k & K & ->) M1] [(k' & K' & ->) M2]. apply Rle_antisym; auto. }
    rewrite (UM _ _ _ TX TX'), (UN _ _ _ BX BX'). specialize (C NP). rewrite firstn_map, map_map. cbn [frame_of].
    erewrite map_ext_in; [exact C|]. intros q Q. cbn. f_equal. unfold contact_points. f_equal. f_equal. f_equal.
    assert (Iq : In q (s0 :: ss0)) by (rewrite <- (firstn_skipn i (s0 :: ss0)); apply in_or_app; left; exact Q).
    destruct (hx_grid _ _ _ _ _ _ _ X q Iq) as [Gq _]. rewrite Gq. reflexivity.
  Qed.

  (** File names: different calculations and different options never share a
      file. *)
  Theorem C67_names : forall fn fn' i j,
    (file_name false fn i = file_name false fn' j <-> fn = fn' /\ i = j) /\ file_name true fn i = fn.
  Proof.
    intros fn fn' i j. split; [|apply name_single]. split; [apply names_distinct|]. intros [-> ->]. reflexivity.
  Qed.

  (** The maps agree with the line of the log: mean gap, mean displacement,
      load, mean pressure, contact area. *)
  Theorem C67_maps : forall a ev t o n m lx ly, main a = (ev, Ret tt) -> hw_displacement a = None -> ask a o ->
    well_shaped solver -> read a = Ret t -> sf_grid (sc_surface t) = [n; m] -> sc_sizes t = [lx; ly] -> 0 < lx -> 0 < ly ->
    sf_area (sc_surface t) = lx * ly / INR (n * m) ->
    forall i r, nth_error (rows ev) i = Some r ->
      r_gap r = r_elastic r - r_rigid r
      /\ (forall fn, hw_gap_fn a = Some fn -> exists g, In (file_name (snd (plan o)) fn i, WLength (unit_of a) g) (files ev)
           /\ a_shape g = [n; m] /\ amean g = r_gap r)
      /\ (forall fn, hw_displ_fn a = Some fn -> exists u, In (file_name (snd (plan o)) fn i, WLength (unit_of a) u) (files ev)
           /\ a_shape u = [n; m] /\ amean u = r_elastic r)
      /\ (forall fn, hw_pressure_fn a = Some fn -> exists e p, In (file_name (snd (plan o)) fn i, WPressure e p) (files ev)
           /\ a_shape p = [n; m] /\ asum p * sf_area (sc_surface t) = r_load r /\ amean p = r_pressure r
           /\ r_fraction r = INR (points_in (positive_zone p)) / INR (n * m)
           /\ r_area r = r_fraction r * (lx * ly)).
  Proof.
    intros a ev t o n m lx ly H D A SV Rd G SZ X Y AR i r Nr.
    destruct (C67_output a ev (Ret tt) H D) as [[_ [e Q]]|(t' & sb & young & o' & ss & Rd' & Sb & A' & Ex & Rw & Fr & Snd & Fin)]; [discriminate|].
    rewrite Rd in Rd'. injection Rd' as <-. rewrite (C67_asked a o' o A' A D) in *. destruct (Fin eq_refl) as [_ Cm].
    destruct (hw_substrate_inv _ _ _ _ _ _ Sb G) as (_ & _ & Pn & Pm & _).
    rewrite Rw, nth_error_map in Nr. destruct (nth_error ss i) as [s|] eqn:Ns; [|discriminate]. injection Nr as <-.
    pose proof (nth_error_In _ _ Ns) as Is.
    destruct (hx_grid _ _ _ _ _ _ _ Ex s Is) as (GB & GA & AB & AA). rewrite G in GB, GA.
    destruct (SV sb (hd_before s) (match hw_hardness a with Some _ => Some (sf_hardness (sc_surface t) * sf_area (sc_surface t)) | None => None end)
      (hd_off s) (hd_force s) (hw_pentol a) (hw_maxiter a) n m GB) as (r0 & n' & m' & So & J & XS & L1 & L2).
    rewrite (hx_solver _ _ _ _ _ _ _ Ex s Is) in So. injection So as <-.
    destruct (hx_fields _ _ _ _ _ _ _ Ex s Is) as (n0 & n1 & J' & U). change (o_jac (hd_opt s)) with (forces s) in J. rewrite J in J'. injection J' as <- <-.
    rewrite (slice_ok n m n' m' _ XS L1 L2) in U. injection U as U.
    assert (US : a_shape (hd_u s) = [n; m]) by (rewrite <- U; reflexivity).
    assert (NM : 0 < INR (n * m)) by (apply lt_0_INR; nia).
    assert (AP : 0 < sf_area (sc_surface t)) by (rewrite AR; apply Rdiv_lt_0_compat; nra).
    assert (TT : fold_right Rmult 1 (sc_sizes t) = lx * ly) by (rewrite SZ; cbn; ring).
    assert (SZn : size [n; m] = (n * m)%nat) by (cbn; lia).
    unfold row_of. cbn [r_gap r_elastic r_rigid r_load r_pressure r_fraction r_area].
    split; [reflexivity|]. split; [|split].
    - intros fn Fn. destruct (Cm KGap fn i s Fn Ns) as (mp & I0 & d & B & ->). eexists. split; [exact I0|].
      destruct (binop_mean n m (hd_u s) (heights (hd_after s)) d US GA ltac:(lia) B) as (DS & _ & DM). split; [exact DS|].
      rewrite (amean_shift _ (hd_position s)); [rewrite DM; ring|reflexivity|rewrite DS; unfold size; cbn; nia].
    - intros fn Fn. destruct (Cm KDispl fn i s Fn Ns) as (mp & I0 & ->). eexists. split; [exact I0|]. split; [exact US|reflexivity].
    - intros fn Fn. destruct (Cm KPressure fn i s Fn Ns) as (mp & I0 & e & ->). eexists e, _. split; [exact I0|].
      rewrite AB. set (ar := sf_area (sc_surface t)) in *.
      assert (SC : asum (amap (fun f => f / ar) (forces s)) = asum (forces s) * / ar) by (apply asum_scale; reflexivity).
      split; [exact J|]. split; [rewrite SC; field; lra|]. split.
      + unfold amean. cbn [amap a_shape]. rewrite J, SZn. fold (amap (fun f => f / ar) (forces s)). rewrite SC, TT, AR. field. lra.
      + assert (CP : contact_points (forces s) = INR (points_in (positive_zone (amap (fun f => f / ar) (forces s))))).
        { unfold contact_points. rewrite count_points. f_equal. unfold points_in, positive_zone, amap. cbn [fst snd a_shape a_val].
          f_equal. apply filter_ext. intros k.
          destruct (Rlt_dec 0 (a_val (forces s) _ _)) as [P1|P1], (Rlt_dec 0 (a_val (forces s) _ _ / ar)) as [P2|P2]; try reflexivity; exfalso.
          - apply P2. apply Rdiv_lt_0_compat; lra.
          - apply P1. apply (Rmult_lt_reg_r (/ ar)); [apply Rinv_0_lt_compat; lra|]. rewrite Rmult_0_l. exact P2. }
        rewrite GB, SZn. split; [rewrite CP; reflexivity|]. rewrite AR. field. lra.
  Qed.

  (** The topography: the file is read with the unit asked for, else with its
      own one, else with the unit "N/A"; then it is scaled, detrended and
      made plastic, in this order. *)
  Theorem C67_surface : forall a t, read a = Ret t -> exists t0,
    (forall u, hw_size_unit a = Some u -> load (Some u) = Ret t0)
    /\ (forall u, hw_size_unit a = None -> file_unit = Some u -> load None = Ret t0)
    /\ (hw_size_unit a = None -> file_unit = None -> load (Some "N/A"%string) = Ret t0)
    /\ prepared detrend (unit_of a) a t0 t.
  Proof.
    intros a t Rd. unfold read_surface in Rd. apply bindRet in Rd. destruct Rd as (t0 & L & Rd). exists t0. unfold given_unit in L.
    split; [intros u U; rewrite U in L; exact L|]. split; [intros u U V; rewrite U, V in L; exact L|]. split; [intros U V; rewrite U, V in L; exact L|].
    apply bindRet in Rd. destruct Rd as (fac & HF & Rd). apply bindRet in Rd. destruct Rd as (sf2 & DT & Rd). injection Rd as <-.
    rewrite unit_is in HF. unfold height_factor in HF.
    set (sf1 := match hw_height_fac a, hw_height_unit a with None, None => sc_surface t0 | _, _ => scale_surface fac (sc_surface t0) end) in DT.
    constructor; [reflexivity|reflexivity|]. exists fac, sf1, sf2. cbn [sc_surface].
    split; [intros Z; rewrite Z in HF; injection HF as <-; reflexivity|]. split.
    { intros h Z. rewrite Z in HF. apply bindRet in HF. destruct HF as (x & X & HF). apply bindRet in HF. destruct HF as (y & Y & HF).
      exists x, y. split; [exact X|]. split; [exact Y|]. injection HF as <-.
      assert (NZ : y <> 0).
      { unfold unit_to_meters in Y. repeat match type of Y with (if ?b then _ else _) = _ => destruct b end; try discriminate;
          injection Y as <-; try (apply Rinv_neq_0_compat; apply pow_nonzero); lra. }
      field. exact NZ. }
    assert (S1 : sf_grid sf1 = sf_grid (sc_surface t0) /\ sf_area sf1 = sf_area (sc_surface t0)
                 /\ forall i j, a_val (heights sf1) i j = fac * a_val (heights (sc_surface t0)) i j).
    { unfold sf1. destruct (hw_height_fac a) eqn:F1, (hw_height_unit a) eqn:F2; try (cbn; repeat split; intros; ring).
      injection HF as <-. repeat split. intros. ring. }
    destruct S1 as (G1 & A1 & H1). split; [exact G1|]. split; [exact A1|]. split; [exact H1|].
    split; [intros Z; rewrite Z in DT; injection DT as <-; reflexivity|]. split; [intros d Z; rewrite Z in DT; exact DT|].
    destruct (hw_hardness a) as [h|]; cbn; repeat split; try (intros; discriminate); try (intros; ring). intros h' Z. injection Z as <-. reflexivity.
  Qed.

  (** The contact modulus of the substrate is the same for both boundary
      conditions. *)
  Theorem C67_modulus : forall a t sb young, hw_substrate a t = Ret (sb, young) -> hw_thickness a = None ->
    let half_space := if String.eqb (hw_boundary a) "periodic" then plain_periodic else plain_free in
    half_space (sf_grid (sc_surface t)) (sc_sizes t) (hw_modulus a / (1 - hw_poisson a ^ 2)) = Ret sb.
  Proof.
    intros a t sb young H TH. destruct (hw_substrate_plain _ _ _ _ H TH) as (_ & [(B & _ & E)|(B & _ & E)]); rewrite B; exact E.
  Qed.

  (** *** Comparison with [contact_mechanics] *)
  (** The same calculation asked for in both ways: contact modulus one, no
      plasticity, the same surface, boundary, tolerance and iterations. *)
  Definition same_problem (rms : arr -> R) (a : hw_args) (t : scanned) (c : cm_args) : Prop :=
    hw_hardness a = None /\ hw_modulus a = 1 /\ hw_poisson a = 0 /\ hw_thickness a = None
    /\ hw_pentol a = Some (tolerance rms c) /\ hw_maxiter a = cm_maxiter c /\ hw_boundary a = substrate_name c
    /\ cm_topography c = sc_surface t /\ cm_sizes c = sc_sizes t /\ cm_hardness c = None /\ cm_is_plastic c = false.
  Definition for_pipeline (sb : substrate) (sf : surface) (h : option R) (s : solver_args) : res oresult :=
    solver sb sf h (sa_offset s) (sa_force s) (Some (sa_pentol s)) (sa_maxiter s).
  Definition loads (ev : list event) : list R := map (fun e => match e with (_, _, _, l, _) => l end) (frames ev).
  Definition areas (ev : list event) : list R := map (fun e => match e with (_, _, _, _, x) => x end) (frames ev).
  Definition positions (ev : list event) : list R := map (fun e => match e with (_, _, x, _, _) => x end) (frames ev).

  Lemma same_half_space : forall rms a t c sb young, same_problem rms a t c -> hw_substrate a t = Ret (sb, young) ->
    make_half_space (substrate_name c) (sf_grid (cm_topography c)) (cm_sizes c) = Ret sb.
  Proof.
    intros rms a t c sb young (_ & E & NU & TH & _ & _ & B & TP & SZ & _) H. rewrite TP, SZ, <- B. unfold make_half_space.
    destruct (hw_substrate_plain _ _ _ _ H TH) as (_ & [(-> & _ & S)|(-> & _ & S)]); cbn [String.eqb Ascii.eqb Bool.eqb];
      rewrite E, NU in S; replace (1 / (1 - 0 ^ 2)) with 1 in S by (field; lra); exact S.
  Qed.

  Lemma same_solver : forall rms a t c sb ss sb' xs total cs, same_problem rms a t c -> sb = sb' ->
    hw_explains solver a sb total (sc_surface t) cs ss -> explains for_pipeline rms c sb' xs ->
    forall s x, In s ss -> In x xs -> hd_off s = sa_offset (dn_args x) -> hd_force s = sa_force (dn_args x) ->
      hd_opt s = dn_opt x.
  Proof.
    intros rms a t c sb ss sb' xs total cs (EL & _ & _ & _ & PT & MI & _ & TP & _ & HN & NP) <- X E s x Is Ix O F.
    pose proof (hx_solver _ _ _ _ _ _ _ X s Is) as A. pose proof (ex_solver _ _ _ _ _ E x Ix) as B.
    destruct (ex_settings _ _ _ _ _ E x Ix) as [P M]. unfold for_pipeline in B.
    assert (PF : is_plastic_run c = false) by (unfold is_plastic_run; rewrite HN; reflexivity).
    destruct (ex_elastic _ _ _ _ _ E PF x Ix) as [_ BX]. rewrite (BX (or_intror NP)) in B.
    destruct (hx_elastic _ _ _ _ _ _ _ X EL s Is) as [BS _]. unfold hardness_of in B.
    rewrite PF, P, M, TP, <- O, <- F in B. rewrite BS, EL, PT, MI in A. rewrite A in B. injection B as B. exact B.
  Qed.

  Lemma map_same : forall A B D (f : A -> D) (g : B -> D) l l', List.length l = List.length l' ->
    (forall i x y, nth_error l i = Some x -> nth_error l' i = Some y -> f x = g y) -> map f l = map g l'.
  Proof.
    intros A B D f g l. induction l as [|x l IH]; intros [|y l'] L H; try discriminate; [reflexivity|]. cbn [map]. f_equal.
    - exact (H 0%nat x y eq_refl eq_refl).
    - apply IH; [cbn in L; lia|]. intros i u v. exact (H (S i) u v).
  Qed.

  (** Outputs of the same result agree. *)
  Lemma same_output : forall rms a t c sb ss xs total cs, same_problem rms a t c ->
    total = fold_right Rmult 1 (cm_sizes c) ->
    hw_explains solver a sb total (sc_surface t) cs ss -> explains for_pipeline rms c sb xs ->
    forall s x, In s ss -> In x xs -> hd_opt s = dn_opt x -> hd_position s = o_offset (dn_opt x) ->
      asum (forces s) / total = out_load (dn_out x)
      /\ contact_points (forces s) / INR (size (sf_grid (hd_before s))) = out_area (dn_out x)
      /\ r_gap (row_of total s) = gap_of x.
  Proof.
    intros rms a t c sb ss xs total cs SP -> X E s x Is Ix O P.
    destruct (ex_output _ _ _ _ _ E x Ix) as (n0 & n1 & d & J & U & _ & _ & _ & _ & _ & LO & AR).
    destruct (hx_fields _ _ _ _ _ _ _ X s Is) as (n0' & n1' & J' & U'). unfold forces in *. rewrite O in J', U'.
    rewrite J in J'. injection J' as <- <-. rewrite U in U'. injection U' as U'.
    destruct SP as (EL & _ & _ & _ & _ & _ & _ & TP & _ & HN & NP).
    assert (PF : is_plastic_run c = false) by (unfold is_plastic_run; rewrite HN; reflexivity).
    destruct (ex_elastic _ _ _ _ _ E PF x Ix) as [_ BX]. specialize (BX (or_intror NP)).
    destruct (hx_elastic _ _ _ _ _ _ _ X EL s Is) as [BS AS].
    rewrite LO, AR, O. unfold row_of. cbn [r_gap]. unfold gap_of. rewrite <- U', P, AS, BX, BS, TP. split; [reflexivity|]. split; [reflexivity|]. ring.
  Qed.

  (** Automatic mode: the numbers in the NetCDF file and in the log are those
      that [contact_mechanics] returns for twenty steps. *)
  Theorem C67_pipeline : forall rms callback a ev t c calls p ar d g conv,
    main a = (ev, Ret tt) -> hw_displacement a = None -> ask a None -> hw_netcdf a = true -> read a = Ret t ->
    same_problem rms a t c -> keeps_offset solver ->
    (0 < size (sf_grid (sc_surface t)))%nat -> cm_nsteps c = Some 20%Z ->
    contact_mechanics for_pipeline rms callback c = (calls, Ret (p, ar, d, g, conv)) ->
    loads ev = p /\ areas ev = ar /\ positions ev = d /\ map r_gap (rows ev) = g.
  Proof.
    intros rms callback a ev t c calls p ar d g conv H D A NC Rd SP KO NP NS CM.
    destruct (C67_output a ev (Ret tt) H D) as [[_ [e Q]]|(t' & sb & young & o & ss & Rd' & Sb & A' & X & Rw & Fr & _ & Fin)]; [discriminate|].
    rewrite Rd in Rd'. injection Rd' as <-. rewrite NC in Fr. rewrite (C67_asked a o None A' A D) in *. destruct (Fin eq_refl) as [Ls _].
    destruct (explained _ _ _ _ _ _ CM) as (xs & _ & E & F). destruct (F _ eq_refl) as (NE & Lx & RT). destruct E as [Z|[sb' E]]; [contradiction|].
    pose proof (same_half_space _ _ _ _ _ _ SP Sb) as HS. pose proof (ex_substrate _ _ _ _ _ E) as HS'. rewrite HS in HS'. injection HS' as <-.
    assert (NO : cm_offsets c = None /\ cm_pressures c = None).
    { unfold contact_mechanics, mode_ok in CM. rewrite NS in CM. destruct (cm_offsets c), (cm_pressures c); try discriminate. auto. }
    destruct NO as [O1 O2]. assert (LL : List.length ss = List.length xs).
    { rewrite Ls, Lx. unfold requested. rewrite O1, O2, NS. cbn [plan fst]. rewrite repeat_length. reflexivity. }
    assert (NX : forall cc, In cc (fst (plan None)) -> cc = Next) by (intros cc Q; apply repeat_spec in Q; exact Q).
    pose proof (hx_next _ _ _ _ _ _ _ X NX) as N.
    destruct SP as (EL & SP') eqn:SPE. clear SPE. pose proof (conj EL SP' : same_problem rms a t c) as SPc.
    assert (TP : cm_topography c = sc_surface t) by apply SP'. assert (SZ : cm_sizes c = sc_sizes t) by apply SP'.
    assert (HN : cm_hardness c = None) by apply SP'. assert (NPL : cm_is_plastic c = false) by apply SP'.
    assert (PF : is_plastic_run c = false) by (unfold is_plastic_run; rewrite HN; reflexivity).
    assert (K : forall i s x, nth_error ss i = Some s -> nth_error xs i = Some x ->
              hd_opt s = dn_opt x /\ hd_position s = o_offset (dn_opt x)).
    { intros i. induction i as [i IH] using (well_founded_induction lt_wf). intros s x S1 X1.
      destruct (N i s S1) as (F1 & F2 & _ & top & bot & TX & BX & CH). specialize (CH NP).
      destruct (ex_nsteps _ _ _ _ _ E _ NS i x X1) as (_ & G1 & y & top' & bot' & G2 & TX' & BX' & CH').
      destruct (hx_elastic _ _ _ _ _ _ _ X EL s (nth_error_In _ _ S1)) as [Bs _].
      destruct (ex_elastic _ _ _ _ _ E PF x (nth_error_In _ _ X1)) as [_ Bx]. specialize (Bx (or_intror NPL)).
      rewrite Bs in TX, BX, CH. rewrite Bx, TP in TX', BX', CH'.
      assert (RC : map record_of (firstn i xs)
                 = map (fun u => (hd_position u, contact_points (forces u) / INR (size (sf_grid (sc_surface t))))) (firstn i ss)).
      { symmetry. apply map_same; [rewrite !firstn_length; lia|]. intros j u v U V.
        assert (J : (j < i)%nat).
        { assert (j < List.length (firstn i ss))%nat by (apply nth_error_Some; rewrite U; discriminate). rewrite firstn_length in *. lia. }
        assert (FN : forall A0 (l : list A0) w, nth_error (firstn i l) j = Some w -> nth_error l j = Some w).
        { intros A0 l w Q. rewrite <- (firstn_skipn i l). rewrite nth_error_app1; [exact Q|]. apply nth_error_Some. rewrite Q. discriminate. }
        apply FN in U, V. destruct (IH j J u v U V) as [Q1 Q2].
        destruct (same_output rms a t c sb ss xs _ _ SPc ltac:(rewrite SZ; reflexivity) X E u v (nth_error_In _ _ U) (nth_error_In _ _ V) Q1 Q2) as (_ & Q3 & _).
        destruct (hx_grid _ _ _ _ _ _ _ X u (nth_error_In _ _ U)) as [Gu _]. rewrite Gu in Q3.
        unfold record_of. rewrite <- Q3, Q2. reflexivity. }
      rewrite RC in CH'.
      assert (UM : forall b m m', is_max b m -> is_max b m' -> m = m').
      { intros b m m' [(k & K & ->) M1] [(k' & K' & ->) M2]. apply Rle_antisym; auto. }
      assert (UN : forall b m m', is_min b m -> is_min b m' -> m = m').
      { intros b m m' [(k & K & ->) M1] [(k' & K' & ->) M2]. apply Rle_antisym; auto. }
      rewrite (UM _ _ _ TX' TX), (UN _ _ _ BX' BX) in CH'. pose proof (chosen_unique _ _ _ _ _ _ _ CH CH') as P0.
      assert (Q : hd_opt s = dn_opt x).
      { apply (same_solver rms a t c sb ss sb xs _ _ SPc eq_refl X E s x (nth_error_In _ _ S1) (nth_error_In _ _ X1)); congruence. }
      split; [exact Q|]. rewrite <- Q. symmetry. pose proof (hx_solver _ _ _ _ _ _ _ X s (nth_error_In _ _ S1)) as SV. rewrite F2 in SV.
      apply (KO _ _ _ _ _ _ _ _ SV). }
    unfold returned in RT. injection RT as -> -> -> -> _. unfold loads, areas, positions. rewrite Fr, Rw, !map_map.
    assert (KK : forall i s x, nth_error ss i = Some s -> nth_error xs i = Some x ->
      asum (forces s) / fold_right Rmult 1 (sc_sizes t) = out_load (dn_out x)
      /\ contact_points (forces s) / INR (size (sf_grid (hd_before s))) = out_area (dn_out x)
      /\ r_gap (row_of (fold_right Rmult 1 (sc_sizes t)) s) = gap_of x).
    { intros i s x S1 X1. destruct (K i s x S1 X1) as [K1 K2].
      apply (same_output rms a t c sb ss xs _ _ SPc ltac:(rewrite SZ; reflexivity) X E s x (nth_error_In _ _ S1) (nth_error_In _ _ X1) K1 K2). }
    repeat split; apply map_same; try exact LL; intros i s x S1 X1; destruct (KK i s x S1 X1) as (K1 & K2 & K3); cbn [frame_of].
    - destruct (N i s S1) as (_ & _ & LO & _). rewrite LO. exact K1.
    - exact K2.
    - apply (K i s x S1 X1).
    - exact K3.
  Qed.

  (** Given pressures: the numbers in the log and the positions agree. *)
  Theorem C67_pipeline_pressures : forall rms callback a ev t c calls l p ar d g conv,
    main a = (ev, Ret tt) -> hw_displacement a = None -> ask a (Some l) -> hw_netcdf a = true -> read a = Ret t ->
    same_problem rms a t c -> cm_pressures c = Some l ->
    contact_mechanics for_pipeline rms callback c = (calls, Ret (p, ar, d, g, conv)) ->
    loads ev = l /\ map r_pressure (rows ev) = p /\ areas ev = ar /\ map r_fraction (rows ev) = ar
    /\ positions ev = d /\ map r_gap (rows ev) = g.
  Proof.
    intros rms callback a ev t c calls l p ar d g conv H D A NC Rd SP NS CM.
    destruct (C67_output a ev (Ret tt) H D) as [[_ [e Q]]|(t' & sb & young & o & ss & Rd' & Sb & A' & X & Rw & Fr & _ & Fin)]; [discriminate|].
    rewrite Rd in Rd'. injection Rd' as <-. rewrite NC in Fr. rewrite (C67_asked a o (Some l) A' A D) in *. destruct (Fin eq_refl) as [Ls _].
    destruct (explained _ _ _ _ _ _ CM) as (xs & _ & E & F). destruct (F _ eq_refl) as (NE & Lx & RT). destruct E as [Z|[sb' E]]; [contradiction|].
    pose proof (same_half_space _ _ _ _ _ _ SP Sb) as HS. pose proof (ex_substrate _ _ _ _ _ E) as HS'. rewrite HS in HS'. injection HS' as <-.
    assert (NO : cm_offsets c = None).
    { unfold contact_mechanics, mode_ok in CM. rewrite NS in CM. destruct (cm_offsets c), (cm_nsteps c); try discriminate; reflexivity. }
    cbn [plan fst] in *. assert (Ls' : List.length ss = List.length l) by (rewrite Ls, map_length; reflexivity).
    assert (LL : List.length ss = List.length xs) by (rewrite Ls', Lx; unfold requested; rewrite NO, NS; reflexivity).
    assert (SZ : cm_sizes c = sc_sizes t) by apply SP.
    assert (K : forall i s x q, nth_error ss i = Some s -> nth_error xs i = Some x -> nth_error l i = Some q ->
              hd_opt s = dn_opt x /\ hd_position s = o_offset (dn_opt x) /\ hd_load s = q).
    { intros i s x q S1 X1 L1.
      destruct (hx_pressures _ _ _ _ _ _ _ X i q s ltac:(rewrite nth_error_map, L1; reflexivity) S1) as (P1 & P2 & P3 & P4).
      destruct (ex_pressures _ _ _ _ _ E l NS i x X1) as (_ & P5 & P6). rewrite L1 in P5. cbn [option_map] in P5.
      assert (Q : hd_opt s = dn_opt x).
      { apply (same_solver rms a t c sb ss sb xs _ _ SP eq_refl X E s x (nth_error_In _ _ S1) (nth_error_In _ _ X1)); congruence. }
      split; [exact Q|]. split; [rewrite P3, Q; reflexivity|exact P4]. }
    assert (KK : forall i s x, nth_error ss i = Some s -> nth_error xs i = Some x ->
      hd_position s = o_offset (dn_opt x) /\ asum (forces s) / fold_right Rmult 1 (sc_sizes t) = out_load (dn_out x)
      /\ contact_points (forces s) / INR (size (sf_grid (hd_before s))) = out_area (dn_out x)
      /\ r_gap (row_of (fold_right Rmult 1 (sc_sizes t)) s) = gap_of x).
    { intros i s x S1 X1. destruct (nth_error l i) as [q|] eqn:L1.
      - destruct (K i s x q S1 X1 L1) as (K1 & K2 & _). split; [exact K2|].
        apply (same_output rms a t c sb ss xs _ _ SP ltac:(rewrite SZ; reflexivity) X E s x (nth_error_In _ _ S1) (nth_error_In _ _ X1) K1 K2).
      - apply nth_error_None in L1. assert (i < List.length ss)%nat by (apply nth_error_Some; rewrite S1; discriminate). lia. }
    unfold returned in RT. injection RT as -> -> -> -> _. unfold loads, areas, positions. rewrite Fr, Rw, !map_map.
    split.
    { rewrite <- (map_id l). apply map_same; [exact Ls'|]. intros i s q S1 L1. cbn [frame_of].
      destruct (nth_error xs i) as [x|] eqn:X1; [apply (K i s x q S1 X1 L1)|].
      apply nth_error_None in X1. assert (i < List.length ss)%nat by (apply nth_error_Some; rewrite S1; discriminate). lia. }
    repeat split; apply map_same; try exact LL; intros i s x S1 X1; destruct (KK i s x S1 X1) as (K0 & K1 & K2 & K3); cbn [frame_of].
    - exact K1.
    - exact K2.
    - exact K2.
    - exact K0.
    - exact K3.
  Qed.

  (** ** What is not true *)

  (** [--displacement] never works, whatever its value: the program raises and
      writes nothing. *)
  Theorem C67_displacement_refuted : forall a d, hw_displacement a = Some d -> exists e, main a = ([], Exc e).
  Proof. intros a d D. eapply main_displacement. exact D. Qed.

  (** The numbers of the calculation are in the comment header of the first
      kind of map only: with a contact map no other file has them. *)
  Theorem C67_header_refuted : forall a ev r fn, main a = (ev, r) -> hw_contact_fn a = Some fn ->
    forall n m mc, In (Saved n m mc) ev ->
      (forall s z, m = WContact s z -> exists hd rw, In (Row hd rw) ev /\ mc = combine hd (row_data rw))
      /\ ((forall s z, m <> WContact s z) -> mc = []).
  Proof.
    intros a ev r fn H C n m mc X. destruct (hw_displacement a) as [d|] eqn:D.
    { destruct (main_displacement float_of int_of detrend load file_unit solver active a d D) as [e E]. rewrite E in H. injection H as <- _. destruct X. }
    destruct (main_run _ _ _ _ _ _ _ _ _ _ H D) as [[-> _]|(t & sb & young & y & o & _ & _ & _ & _ & Rn)]; [destruct X|].
    destruct (run_events _ _ _ _ _ _ _ _ _ _ _ _ _ _ Rn _ X) as (j & sf & so & ev' & r' & E & X' & I').
    destruct (emit_saved _ _ _ _ _ _ _ _ _ _ E _ _ _ X') as (_ & _ & _ & P & _ & Q). split.
    - intros s z M. destruct (Q s z M) as (hd & rw & R1 & R2). exists hd, rw. split; [apply I'; exact R1|exact R2].
    - intros W. exact (P fn C W).
  Qed.

  (** A file without unit together with [--height-unit] is a KeyError. *)
  Theorem C67_height_unit_refuted : forall a t h, file_unit = None -> hw_size_unit a = None -> hw_height_unit a = Some h ->
    load (Some "N/A"%string) = Ret t -> main a = ([], Exc KeyErr).
  Proof.
    intros a t h FU SU HU L. unfold hw_main, read_surface.
    assert (GU : given_unit a file_unit = Some "N/A"%string) by (unfold given_unit; rewrite SU, FU; reflexivity).
    assert (HF : height_factor a (surface_unit a file_unit) = Exc KeyErr).
    { unfold height_factor, surface_unit. rewrite HU, GU. unfold unit_to_meters at 1.
      repeat match goal with |- context [if ?b then _ else _] => destruct b end; reflexivity. }
    rewrite GU, L. cbn [bind]. rewrite HF. reflexivity.
  Qed.

  (** The modulus in the header of a pressure map (None: "units of E*", that
      is one) is not the contact modulus if the boundary is periodic and
      Poisson's number is not zero. *)
  Theorem C67_stated_modulus_refuted : forall a ev r n e p mc, main a = (ev, r) -> hw_boundary a = "periodic"%string ->
    hw_thickness a = None -> hw_poisson a <> 0 -> hw_modulus a <> 0 -> In (Saved n (WPressure e p) mc) ev ->
    exists t sb, read a = Ret t
      /\ plain_periodic (sf_grid (sc_surface t)) (sc_sizes t) (hw_modulus a / (1 - hw_poisson a ^ 2)) = Ret sb
      /\ match e with Some x => x | None => 1 end <> hw_modulus a / (1 - hw_poisson a ^ 2).
  Proof.
    intros a ev r n e p mc H B TH NU NE X. destruct (hw_displacement a) as [d|] eqn:D.
    { destruct (main_displacement float_of int_of detrend load file_unit solver active a d D) as [e0 E]. rewrite E in H. injection H as <- _. destruct X. }
    destruct (main_run _ _ _ _ _ _ _ _ _ _ H D) as [[-> _]|(t & sb & young & y & o & Rd & Sb & _ & _ & Rn)]; [destruct X|].
    destruct (run_events _ _ _ _ _ _ _ _ _ _ _ _ _ _ Rn _ X) as (j & sf & so & ev' & r' & E & X' & I').
    destruct (emit_saved _ _ _ _ _ _ _ _ _ _ E _ _ _ X') as (_ & _ & P & _). specialize (P e p eq_refl).
    destruct (hw_substrate_plain _ _ _ _ Sb TH) as (NZ & [(_ & Yg & S)|(B' & _)]); [|rewrite B in B'; discriminate].
    exists t, sb. split; [exact Rd|]. split; [exact S|].
    assert (Q : match e with Some x => x | None => 1 end = hw_modulus a) by (rewrite P, Yg; destruct (Req_EM_T (hw_modulus a) 1); congruence).
    rewrite Q. intro Z. apply NU. assert (Z' : hw_modulus a * (1 - hw_poisson a ^ 2) = hw_modulus a) by (transitivity (hw_modulus a / (1 - hw_poisson a ^ 2) * (1 - hw_poisson a ^ 2)); [rewrite <- Z; reflexivity|field; exact NZ]).
    assert (Z2 : hw_modulus a * (hw_poisson a * hw_poisson a) = 0) by nra.
    apply Rmult_integral in Z2. destruct Z2 as [Z2|Z2]; [contradiction|]. apply Rmult_integral in Z2. tauto.
  Qed.

  (** The contact map of a nonperiodic run has four times as many points as
      the other maps: it is on the padded grid. *)
  Theorem C67_contact_map_refuted : forall a ev r t n m, main a = (ev, r) -> hw_displacement a = None -> hw_boundary a = "nonperiodic"%string ->
    (forall sb sf h off force pentol maxiter r k l, solver sb sf h off force pentol maxiter = Ret r ->
       sf_grid sf = [k; l] -> sb_sub sb = [2 * k; 2 * l]%nat -> a_shape (o_jac r) = [k; l] /\ a_shape (o_x r) = [2 * k; 2 * l]%nat) ->
    read a = Ret t -> sf_grid (sc_surface t) = [n; m] ->
    (forall f s z, In (f, WContact s z) (files ev) -> s = [2 * n; 2 * m]%nat)
    /\ (forall f e p, In (f, WPressure e p) (files ev) -> a_shape p = [n; m]).
  Proof.
    intros a ev r t n m H D B SH Rd G.
    destruct (C67_output a ev r H D) as [[-> _]|(t' & sb & young & o & ss & Rd' & Sb & A & Ex & _ & _ & Snd & _)]; [split; intros ? ? ? []|].
    rewrite Rd in Rd'. injection Rd' as <-.
    assert (SUB : sb_sub sb = [2 * n; 2 * m]%nat).
    { unfold hw_substrate in Sb. rewrite B, G in Sb. cbn [String.eqb Ascii.eqb Bool.eqb] in Sb. destruct (hw_thickness a); [discriminate|].
      destruct (Req_bool _ 0); [discriminate|]. unfold call_free in Sb. cbn [kw_unknown kw_check given orb kw_young default kw_q0 kw_thick kw_poisson kw_engine] in Sb.
      destruct (free_construct _) as [s|e] eqn:C; [|discriminate]. injection Sb as <- _. unfold free_construct in C.
      destruct (new_on _ _) as [h|e] eqn:N; [|discriminate]. cbn [bind] in C.
      destruct (Nat.eqb (dim h) 1); [discriminate|]. injection C as <-.
      destruct (new_on_inv _ _ _ N) as (_ & _ & _ & _ & _ & _ & h' & N' & <-).
      pose proof (new_inv _ _ N') as (_ & _ & _ & _ & _ & _ & E). cbn [a_grid base_args fa_grid] in E.
      unfold free. cbn [sb_sub f_dom]. reflexivity. }
    split.
    - intros f s z I0. destruct (Snd _ _ I0) as (k & fn & i & d & _ & Nd & _ & M). destruct k; cbn [map_of] in M;
        [|destruct M as [? M]; discriminate|discriminate|destruct M as (? & _ & M); discriminate].
      injection M as -> _. pose proof (nth_error_In _ _ Nd) as Id. destruct (hx_grid _ _ _ _ _ _ _ Ex d Id) as [Gd _]. rewrite G in Gd.
      apply (SH _ _ _ _ _ _ _ _ n m (hx_solver _ _ _ _ _ _ _ Ex d Id) Gd SUB).
    - intros f e p I0. destruct (Snd _ _ I0) as (k & fn & i & d & _ & Nd & _ & M). destruct k; cbn [map_of] in M;
        [discriminate| |discriminate|destruct M as (? & _ & M); discriminate].
      destruct M as [e0 M]. injection M as _ ->. cbn [amap a_shape].
      pose proof (nth_error_In _ _ Nd) as Id. destruct (hx_grid _ _ _ _ _ _ _ Ex d Id) as [Gd _]. rewrite G in Gd.
      apply (SH _ _ _ _ _ _ _ _ n m (hx_solver _ _ _ _ _ _ _ Ex d Id) Gd SUB).
  Qed.
End Theorems.
Print Assumptions C67_output.
Print Assumptions C67_asked.
Print Assumptions C67_accepts.
Print Assumptions C67_rejects.
Print Assumptions C67_schedule.
Print Assumptions C67_names.
Print Assumptions C67_maps.
Print Assumptions C67_surface.
Print Assumptions C67_modulus.
Print Assumptions C67_pipeline.
Print Assumptions C67_pipeline_pressures.
Print Assumptions C67_displacement_refuted.
Print Assumptions C67_header_refuted.
Print Assumptions C67_height_unit_refuted.
Print Assumptions C67_stated_modulus_refuted.
Print Assumptions C67_contact_map_refuted.

(** ** Concrete runs *)
(** A surface of 2 x 2 points and a size of 2 x 2, and a solver that returns
    constant fields. *)
Definition ex_surface (z : R) : surface := mkSurface [2; 2]%nat (fun i j => z * INR (i + j)) (fun _ _ => 0) 0 1.
Definition ex_load (z : R) : option string -> res scanned := fun _ => Ret (mkScan (ex_surface z) [2; 2] true).
Definition ex_solver (sb : substrate) (sf : surface) (h off force pentol : option R) (maxiter : nat) : res oresult :=
  let s := sf_grid sf in
  Ret (mkOres true (mkArr s (fun _ _ => 1)) (mkArr s (fun _ _ => 1)) (match off with Some x => x | None => 0 end) (fun _ _ => true)).
Definition ex_active : surface -> option R -> option R -> zone := fun _ _ _ _ _ => true.
Definition ex_float : string -> res R := fun s => if String.eqb s "2" then Ret 2 else Ret 1.
Definition ex_int : string -> res Z := fun _ => Ret 3%Z.
Definition ex_detrend : string -> surface -> res surface := fun _ sf => Ret sf.
Definition ex_hw (boundary : string) (nu : R) (hard : option R) (p : option string) : hw_args :=
  mkHw None boundary 1 nu None hard 10 None p None None None None (Some (tolerance (fun _ => 0)
    (mkCm (ex_surface 1) [2; 2] true false (Some boundary) None None None None 10)))
    (Some "c"%string) (Some "p"%string) (Some "u"%string) (Some "g"%string) true.
Definition ex_main (z : R) (a : hw_args) : list event * res unit :=
  hw_main ex_float ex_int ex_detrend (ex_load z) (Some "m"%string) ex_solver ex_active a.

Lemma ex_shaped : well_shaped ex_solver.
Proof. intros sb sf h off force pentol maxiter n m G. eexists _, n, m. split; [reflexivity|]. cbn. rewrite G. auto. Qed.
Lemma ex_keeps : keeps_offset ex_solver.
Proof. intros sb sf h x force pentol maxiter r H. injection H as <-. reflexivity. Qed.
Lemma ex_read : forall z b nu p, read_surface ex_detrend (ex_load z) (Some "m"%string) (ex_hw b nu None p) = Ret (mkScan (ex_surface z) [2; 2] true).
Proof. reflexivity. Qed.
Lemma ex_asked : forall b nu h, asked ex_float ex_int (ex_hw b nu h None) None.
Proof. intros. constructor; reflexivity. Qed.
Lemma ex_asked_range : forall b nu h, asked ex_float ex_int (ex_hw b nu h (Some "1,2,3"%string)) (Some [1; 3 / 2; 2]).
Proof.
  intros. apply (AskedRange _ _ _ "1" "2" "3" 1 2 3%Z); try reflexivity; try (cbn; repeat split; discriminate).
  split; [reflexivity|]. split; [intros x H; injection H as <-; reflexivity|]. split; [intros x _ H; injection H as <-; reflexivity|].
  intros [|[|i]] x y w A B D; cbn in *; try discriminate. injection A as <-. injection B as <-. injection D as <-. lra.
Qed.

(** Both boundary conditions, automatic mode and a range of pressures: the
    program ends normally. *)
Example C67_nonvacuous : forall b p, b = "periodic"%string \/ b = "nonperiodic"%string -> p = None \/ p = Some "1,2,3"%string ->
  exists ev, ex_main 1 (ex_hw b (1 / 2) None p) = (ev, Ret tt) /\ frames ev <> [].
Proof.
  intros b p B P. assert (A : exists o, asked ex_float ex_int (ex_hw b (1 / 2) None p) o /\ fst (plan o) <> []).
  { destruct P as [->| ->]; eexists; (split; [apply ex_asked || apply ex_asked_range|discriminate]). }
  destruct A as (o & A & NE).
  destruct (C67_accepts ex_float ex_int ex_detrend (ex_load 1) (Some "m"%string) ex_solver ex_active (ex_hw b (1 / 2) None p) _ o 2 2 2 2 ex_shaped
    (ex_read 1 b (1 / 2) p) eq_refl eq_refl ltac:(lia) ltac:(lia) B (or_introl eq_refl) ltac:(cbn; lra) eq_refl A) as [ev E].
  exists ev. split; [exact E|]. intro Z.
  destruct (C67_output _ _ _ _ _ _ _ _ _ _ E eq_refl) as [[_ [e Q]]|(t & sb & young & o' & ss & _ & _ & A' & _ & _ & Fr & _ & Fin)]; [discriminate|].
  rewrite (C67_asked _ _ _ _ _ A' A eq_refl) in *. destruct (Fin eq_refl) as [L _]. rewrite Fr in Z. cbn [ex_hw hw_netcdf] in Z.
  destruct ss; [|discriminate]. destruct (fst (plan o)); [apply NE; reflexivity|discriminate].
Qed.

(** The hypotheses of the two comparisons can be met together. *)
Definition ex_cm (nsteps : option Z) (p : option (list R)) : cm_args :=
  mkCm (ex_surface 1) [2; 2] true false (Some "periodic"%string) nsteps None p None 10.
Example C67_nonvacuous_pipeline : exists ev calls A calls' A' ev',
  ex_main 1 (ex_hw "periodic" 0 None None) = (ev, Ret tt)
  /\ ex_main 1 (ex_hw "periodic" 0 None (Some "1,2,3"%string)) = (ev', Ret tt)
  /\ contact_mechanics (for_pipeline ex_solver) (fun _ => 0) (fun _ _ => Ret tt) (ex_cm (Some 20%Z) None) = (calls, Ret A)
  /\ contact_mechanics (for_pipeline ex_solver) (fun _ => 0) (fun _ _ => Ret tt) (ex_cm None (Some [1; 3 / 2; 2])) = (calls', Ret A')
  /\ same_problem (fun _ => 0) (ex_hw "periodic" 0 None None) (mkScan (ex_surface 1) [2; 2] true) (ex_cm (Some 20%Z) None)
  /\ same_problem (fun _ => 0) (ex_hw "periodic" 0 None (Some "1,2,3"%string)) (mkScan (ex_surface 1) [2; 2] true) (ex_cm None (Some [1; 3 / 2; 2])).
Proof.
  destruct (C67_accepts ex_float ex_int ex_detrend (ex_load 1) (Some "m"%string) ex_solver ex_active (ex_hw "periodic" 0 None None) _ None 2 2 2 2 ex_shaped
    (ex_read 1 "periodic" 0 None) eq_refl eq_refl ltac:(lia) ltac:(lia) (or_introl eq_refl) (or_introl eq_refl) ltac:(cbn; lra) eq_refl (ex_asked _ _ _)) as [ev E].
  destruct (C67_accepts ex_float ex_int ex_detrend (ex_load 1) (Some "m"%string) ex_solver ex_active (ex_hw "periodic" 0 None (Some "1,2,3"%string)) _ _ 2 2 2 2 ex_shaped
    (ex_read 1 "periodic" 0 _) eq_refl eq_refl ltac:(lia) ltac:(lia) (or_introl eq_refl) (or_introl eq_refl) ltac:(cbn; lra) eq_refl (ex_asked_range _ _ _)) as [ev' E'].
  assert (SV : forall a, Prop_Pipeline.solves a (for_pipeline ex_solver)).
  { intros a sb sf h sa n m _ G _ _ _. eexists _, n, m. split; [reflexivity|]. cbn. rewrite G. auto. }
  destruct (Prop_Pipeline.C48_accepted (for_pipeline ex_solver) (fun _ => 0) (fun _ _ => Ret tt) (ex_cm (Some 20%Z) None) 2 2 2 2 eq_refl eq_refl eq_refl
    ltac:(lia) ltac:(lia) (or_introl eq_refl) ltac:(cbn; lia) (SV _) (fun _ _ => eq_refl)) as (calls & A & Q).
  destruct (Prop_Pipeline.C48_accepted (for_pipeline ex_solver) (fun _ => 0) (fun _ _ => Ret tt) (ex_cm None (Some [1; 3 / 2; 2])) 2 2 2 2 eq_refl eq_refl eq_refl
    ltac:(lia) ltac:(lia) (or_introl eq_refl) ltac:(cbn; lia) (SV _) (fun _ _ => eq_refl)) as (calls' & A' & Q').
  exists ev, calls, A, calls', A', ev'. split; [exact E|]. split; [exact E'|]. split; [exact Q|]. split; [exact Q'|].
  split; repeat split; reflexivity.
Qed.

(** With a hardness the automatic mode never resets the plastic displacement,
    unlike [contact_mechanics] (C54): here the same result of the solver gives
    another surface in every calculation. *)
Lemma mean_const : forall (a : arr) c, (0 < size (a_shape a))%nat -> (forall i j, a_val a i j = c) -> amean a = c.
Proof.
  intros a c P H. unfold amean, asum. rewrite (Rsum_ext _ _ (fun _ => c)) by (intros k _; unfold flat; rewrite H; destruct (a_shape a) as [|? [|? [|? ?]]]; reflexivity).
  rewrite Rsum_const. assert (0 < INR (size (a_shape a))) by (apply lt_0_INR; exact P). field. lra.
Qed.
Theorem C67_plastic_refuted : exists ev r0 r1, ex_main 0 (ex_hw "periodic" 0 (Some 1) None) = (ev, Ret tt)
  /\ nth_error (rows ev) 0 = Some r0 /\ nth_error (rows ev) 1 = Some r1
  /\ r_elastic r0 = r_elastic r1 /\ r_load r0 = r_load r1
  /\ r_rigid r0 - nth 0 (positions ev) 0 = 1 /\ r_rigid r1 - nth 1 (positions ev) 0 = 2.
Proof.
  set (a := ex_hw "periodic" 0 (Some 1) None).
  assert (Rd : read_surface ex_detrend (ex_load 0) (Some "m"%string) a
             = Ret (mkScan (mkSurface [2; 2]%nat (a_val (heights (ex_surface 0))) (fun _ _ => 0) 1 1) [2; 2] true)) by reflexivity.
  destruct (C67_accepts ex_float ex_int ex_detrend (ex_load 0) (Some "m"%string) ex_solver ex_active a _ None 2 2 2 2 ex_shaped
    Rd eq_refl eq_refl ltac:(lia) ltac:(lia) (or_introl eq_refl) (or_introl eq_refl) ltac:(cbn; lra) eq_refl (ex_asked _ _ _)) as [ev E].
  destruct (C67_output _ _ _ _ _ _ _ _ _ _ E eq_refl) as [[_ [e Q]]|(t & sb & young & o' & ss & Rd' & Sb & A' & X & Rw & Fr & _ & Fin)]; [discriminate|].
  rewrite Rd in Rd'. injection Rd' as <-. rewrite (C67_asked _ _ _ _ _ A' (ex_asked _ _ _) eq_refl) in *. destruct (Fin eq_refl) as [L _].
  cbn [sc_surface sc_sizes] in *. set (sf := mkSurface _ _ _ 1 1) in *.
  destruct (hw_substrate_inv _ _ _ _ 2 2 Sb eq_refl) as (_ & TP & _).
  destruct ss as [|s0 [|s1 ss]]; [discriminate|discriminate|].
  pose proof (hx_next _ _ _ _ _ _ _ X ltac:(intros c Q; apply repeat_spec in Q; exact Q)) as N.
  pose proof (hx_first _ _ _ _ _ _ _ X s0 eq_refl) as B0. pose proof (hx_chain _ _ _ _ _ _ _ X 0 s0 s1 eq_refl eq_refl) as B1.
  destruct (N 0%nat s0 eq_refl) as (F0 & O0 & _ & top0 & bot0 & TX0 & BX0 & C0).
  destruct (N 1%nat s1 eq_refl) as (F1 & O1 & _ & top1 & bot1 & TX1 & BX1 & C1). clear N.
  specialize (C0 ltac:(cbn; lia)). specialize (C1 ltac:(cbn; lia)). cbn [firstn map chosen] in C0, C1.
  pose proof (hx_solver _ _ _ _ _ _ _ X s0 (or_introl eq_refl)) as S0. pose proof (hx_solver _ _ _ _ _ _ _ X s1 (or_intror (or_introl eq_refl))) as S1.
  unfold ex_solver in S0, S1. rewrite O0 in S0. rewrite O1 in S1. injection S0 as S0. injection S1 as S1.
  destruct (hx_grid _ _ _ _ _ _ _ X s0 (or_introl eq_refl)) as (G0 & G0' & _ & _). destruct (hx_grid _ _ _ _ _ _ _ X s1 (or_intror (or_introl eq_refl))) as (G1 & G1' & _ & _).
  cbn [sf sf_grid] in G0, G0', G1, G1'.
  destruct (hx_plastic _ _ _ _ _ _ _ X ltac:(discriminate) s0 (or_introl eq_refl)) as [_ P0].
  destruct (hx_plastic _ _ _ _ _ _ _ X ltac:(discriminate) s1 (or_intror (or_introl eq_refl))) as [_ P1].
  rewrite <- S0 in P0. rewrite <- S1 in P1. cbn [o_success o_x o_offset o_plastic] in P0, P1.
  destruct (P0 eq_refl) as (g0 & Q0 & H0). destruct (P1 eq_refl) as (g1 & Q1 & H1). clear P0 P1.
  assert (CG : forall h off g c, sf_grid h = [2; 2]%nat -> (forall i j, a_val (heights h) i j = c) ->
     compute_gap sb h (mkArr (sf_grid h) (fun _ _ => 1)) off = Ret g -> forall i j, a_val g i j = 1 - (c + off)).
  { intros h off g c G H Q i j. unfold compute_gap in Q. rewrite TP, G in Q. rewrite (slice_ok 2 2 2 2) in Q by (reflexivity || lia). cbn [bind] in Q.
    unfold binop in Q. cbn [a_shape amap heights] in Q. rewrite G in Q. cbn [bext Nat.eqb] in Q. injection Q as <-. cbn [a_val amap].
    rewrite <- (H (bidx 2 i) (bidx 2 j)). reflexivity. }
  assert (M0 : forall i j, a_val (heights (hd_before s0)) i j = 0) by (intros i j; rewrite B0; cbn; ring).
  rewrite (mean_const _ 0) in C0; [|cbn; rewrite G0; cbn; lia|exact M0].
  assert (A0 : forall i j, a_val (heights (hd_after s0)) i j = 1).
  { intros i j. rewrite H0, M0, (CG _ _ _ _ G0 M0 Q0), C0. ring. }
  assert (M1 : forall i j, a_val (heights (hd_before s1)) i j = 1) by (intros i j; rewrite B1; apply A0).
  rewrite (mean_const _ 1) in C1; [|cbn; rewrite G1; cbn; lia|exact M1].
  assert (T1 : top1 = 1).
  { destruct TX1 as [(k & K & ->) _]. unfold flat. cbn [heights a_shape]. rewrite G1. apply M1. }
  assert (A1 : forall i j, a_val (heights (hd_after s1)) i j = 2).
  { intros i j. rewrite H1, M1, (CG _ _ _ _ G1 M1 Q1), C1, T1. field. }
  exists ev. rewrite Rw. do 2 eexists. split; [exact E|]. split; [reflexivity|]. split; [reflexivity|].
  unfold positions. rewrite Fr. cbn [a ex_hw hw_netcdf map nth frame_of]. unfold row_of. cbn [r_elastic r_load r_rigid].
  assert (U : forall s, In s (s0 :: s1 :: ss) -> hd_opt s = mkOres true (mkArr [2; 2]%nat (fun _ _ => 1)) (mkArr [2; 2]%nat (fun _ _ => 1)) (o_offset (hd_opt s)) (fun _ _ => true)
     -> hd_u s = mkArr [2; 2]%nat (fun _ _ => 1)).
  { intros s I0 Q. destruct (hx_fields _ _ _ _ _ _ _ X s I0) as (n0 & n1 & J & U). unfold forces in J. rewrite Q in J, U. cbn [o_jac a_shape o_x] in J, U.
    injection J as <- <-. rewrite (slice_ok 2 2 2 2) in U by (reflexivity || lia). injection U as <-. reflexivity. }
  rewrite G0 in S0. rewrite G1 in S1.
  rewrite (U s0), (U s1); [|right; left; reflexivity|rewrite <- S1; reflexivity|left; reflexivity|rewrite <- S0; reflexivity].
  split; [reflexivity|]. split; [unfold forces; rewrite <- S0, <- S1; reflexivity|].
  rewrite (mean_const _ 1); [|cbn; rewrite G0'; cbn; lia|exact A0]. rewrite (mean_const _ 2); [|cbn; rewrite G1'; cbn; lia|exact A1]. lra.
Qed.
Print Assumptions C67_plastic_refuted.

(** Maps are written: the pressure map of this run states the modulus one,
    while the half-space has 4/3. *)
Example C67_nonvacuous_maps : exists ev n e p mc, ex_main 1 (ex_hw "periodic" (1 / 2) None None) = (ev, Ret tt)
  /\ In (Saved n (WPressure e p) mc) ev /\ a_shape p = [2; 2]%nat.
Proof.
  destruct (C67_nonvacuous "periodic"%string None (or_introl eq_refl) (or_introl eq_refl)) as (ev & E & NE).
  destruct (C67_output _ _ _ _ _ _ _ _ _ _ E eq_refl) as [[_ [e Q]]|(t & sb & young & o' & ss & Rd & _ & A' & _ & Rw & Fr & _ & Fin)]; [discriminate|].
  destruct (Fin eq_refl) as [L _]. rewrite (C67_asked _ _ _ _ _ A' (ex_asked _ _ _) eq_refl) in L. cbn [plan fst] in L. rewrite repeat_length in L.
  destruct ss as [|s ss]; [discriminate|].
  destruct (C67_maps _ _ _ _ _ _ _ _ ev _ None 2 2 2 2 E eq_refl (ex_asked _ _ _) ex_shaped (ex_read 1 _ _ _) eq_refl eq_refl ltac:(lra) ltac:(lra)
    ltac:(cbn; lra) 0%nat _ ltac:(rewrite Rw; reflexivity)) as (_ & _ & _ & P). destruct (P "p"%string eq_refl) as (e & p & I0 & SH & _).
  unfold files in I0. apply in_flat_map in I0. destruct I0 as ([| |n m mc] & I1 & I2); try destruct I2 as [I2|[]]; try contradiction.
  injection I2 as -> ->. exists ev, (file_name (snd (plan None)) "p" 0), e, p, mc. auto.
Qed.

(** A free run with a solver on the padded grid: contact map of 4 x 4, pressure
    map of 2 x 2 points. *)
Definition ex_padded (sb : substrate) (sf : surface) (h off force pentol : option R) (maxiter : nat) : res oresult :=
  let s := map (fun k => 2 * k)%nat (sf_grid sf) in
  Ret (mkOres true (mkArr (if list_eq_dec Nat.eq_dec (sb_sub sb) s then s else sf_grid sf) (fun _ _ => 1))
         (mkArr (sf_grid sf) (fun _ _ => 1)) 0 (fun _ _ => true)).
Example C67_nonvacuous_padded :
  (forall sb sf h off force pentol maxiter r k l, ex_padded sb sf h off force pentol maxiter = Ret r ->
     sf_grid sf = [k; l] -> sb_sub sb = [2 * k; 2 * l]%nat -> a_shape (o_jac r) = [k; l] /\ a_shape (o_x r) = [2 * k; 2 * l]%nat)
  /\ exists ev f s z, hw_main ex_float ex_int ex_detrend (ex_load 1) (Some "m"%string) ex_padded ex_active (ex_hw "nonperiodic" 0 None None) = (ev, Ret tt)
     /\ In (f, WContact s z) (files ev).
Proof.
  split.
  { intros sb sf h off force pentol maxiter r k l H G Q. injection H as <-. cbn [o_jac o_x a_shape]. rewrite G, Q. cbn [map].
    destruct (list_eq_dec _ _ _) as [_|Z]; [auto|exfalso; apply Z; reflexivity]. }
  assert (WS : well_shaped ex_padded).
  { intros sb sf h off force pentol maxiter n m G. unfold ex_padded. rewrite G. cbn [map].
    destruct (list_eq_dec Nat.eq_dec (sb_sub sb) [2 * n; 2 * m]%nat).
    - eexists _, (2 * n)%nat, (2 * m)%nat. split; [reflexivity|]. repeat split; lia.
    - eexists _, n, m. split; [reflexivity|]. repeat split; lia. }
  destruct (C67_accepts ex_float ex_int ex_detrend (ex_load 1) (Some "m"%string) ex_padded ex_active (ex_hw "nonperiodic" 0 None None) _ None 2 2 2 2 WS
    (ex_read 1 "nonperiodic" 0 None) eq_refl eq_refl ltac:(lia) ltac:(lia) (or_intror eq_refl) (or_introl eq_refl) ltac:(cbn; lra) eq_refl (ex_asked _ _ _)) as [ev E].
  destruct (C67_output _ _ _ _ _ _ _ _ _ _ E eq_refl) as [[_ [e Q]]|(t & sb & young & o' & ss & Rd & _ & A' & _ & Rw & Fr & _ & Fin)]; [discriminate|].
  destruct (Fin eq_refl) as [L Mc]. rewrite (C67_asked _ _ _ _ _ A' (ex_asked _ _ _) eq_refl) in L. cbn [plan fst] in L. rewrite repeat_length in L.
  destruct ss as [|s ss]; [discriminate|]. destruct (Mc KContact "c"%string 0%nat s eq_refl eq_refl) as (mp & I0 & ->).
  do 4 eexists. split; [exact E|exact I0].
Qed.

(** Heights in millimetres of a surface in metres, and twice as high. *)
Example C67_nonvacuous_units :
  let a := mkHw None "periodic" 1 0 None None 10 None None None None (Some 2) (Some "mm"%string) None None None None None true in
  exists t, read_surface ex_detrend (ex_load 1) (Some "m"%string) a = Ret t
  /\ unit_to_meters "mm" = Ret (/ 10 ^ 3) /\ unit_to_meters (unit_name a (Some "m"%string)) = Ret 1
  /\ a_val (heights (sc_surface t)) 1%nat 0%nat = 2 / 1000.
Proof.
  eexists. split; [reflexivity|]. split; [reflexivity|]. split; [reflexivity|]. cbn. lra.
Qed.
