(** * C106 Units and table of the command line

    Which units [--height-unit] knows and what they mean, the titles of the columns
    and the comment header of the maps, in terms of the texts themselves. *)
From Coq Require Import Reals ZArith Lia Lra List Arith Bool String Ascii FunctionalExtensionality.
From Verif Require Import Py FFT_Base HalfSpace_Model HalfSpace_Proofs Free_Model Free_Proofs Systems_Model Systems_Proofs Factory_Model
  Pipeline_Model Pipeline_Spec Pipeline_Proofs Pipeline_Sort Pipeline_Results Pipeline_More Pipeline_Out Prop_Pipeline
  HardWall_Model HardWall_Spec HardWall_Proofs HardWall_Results Prop_HardWall.
From Coq Require Import List.
Import ListNotations.
Local Open Scope R_scope.

(** Length units: ångström, nanometre, micrometre, millimetre, metre; "unknown" counts as metre. *)
Definition metres : list (string * R) :=
  [("A", 1 / 10000000000); ("nm", 1 / 1000000000); ("µm", 1 / 1000000); ("mm", 1 / 1000); ("m", 1); ("unknown", 1)]%string.
(** The seven titled numbers of a calculation; [e] is the unit of pressure, [u] that of length. *)
Definition titled (e u : string) (elastic rigid gap load pressure area fraction : R) : list (string * R) :=
  [(("mean elastic (" ++ u ++ ")")%string, elastic); (("mean rigid (" ++ u ++ ")")%string, rigid);
   (("mean gap (" ++ u ++ ")")%string, gap); (("load (" ++ e ++ " " ++ u ++ "^2)")%string, load);
   (("mean pressure (" ++ e ++ ")")%string, pressure); (("area (" ++ u ++ "^2)")%string, area);
   ("fractional area"%string, fraction)].
(** The modulus the substrate reports: the one asked for, reduced only for free half-spaces. *)
Definition reported_modulus (a : hw_args) : R :=
  if String.eqb (hw_boundary a) "periodic" then hw_modulus a else hw_modulus a / (1 - hw_poisson a ^ 2).
Definition pressure_unit (a : hw_args) (e : string) : Prop :=
  (reported_modulus a = 1 -> e = "E*"%string) /\ (reported_modulus a <> 1 -> e = "[Units of E*]"%string).
(** Maps are written in this order. *)
Definition rank (k : kind) : nat := match k with KContact => 0 | KPressure => 1 | KDispl => 2 | KGap => 3 end.
Definition first_map (a : hw_args) (k : kind) : Prop := forall k', (rank k' < rank k)%nat -> option_of k' a = None.
Definition is_kind (k : kind) (m : written) : Prop :=
  match k, m with
  | KContact, WContact _ _ => True | KPressure, WPressure _ _ => True
  | KDispl, WLength _ _ => True | KGap, WLength _ _ => True
  | _, _ => False
  end.

Lemma metres_ok : forall h x, unit_to_meters h = Ret x <-> In (h, x) metres.
Proof.
  intros h x. unfold unit_to_meters, metres. split.
  - intros E. repeat match type of E with (if String.eqb h ?s then _ else _) = _ => destruct (String.eqb_spec h s) as [->|?] end; try discriminate;
      injection E as <-; cbn [In];
      [left|right; left|do 2 right; left|do 3 right; left|do 4 right; left|do 5 right; left]; f_equal; lra.
  - intros [E|[E|[E|[E|[E|[E|[]]]]]]]; injection E as <- <-; cbn [String.eqb Ascii.eqb Bool.eqb]; f_equal; lra.
Qed.
Lemma metres_unknown : forall h, (forall x, ~ In (h, x) metres) <-> unit_to_meters h = Exc KeyErr.
Proof.
  intros h. split.
  - intros N. destruct (unit_to_meters h) as [x|e] eqn:E.
    + exfalso. apply (N x). apply metres_ok. exact E.
    + unfold unit_to_meters in E. repeat match type of E with (if ?b then _ else _) = _ => destruct b end; congruence.
  - intros E x X. apply metres_ok in X. congruence.
Qed.

Section Theorems.
  Variable float_of : string -> res R.
  Variable int_of : string -> res Z.
  Variable detrend : string -> surface -> res surface.
  Variable load : option string -> res scanned.
  Variable file_unit : option string.
  Variable solver : substrate -> surface -> option R -> option R -> option R -> option R -> nat -> res oresult.
  Variable active : surface -> option R -> option R -> zone.
  Notation main := (hw_main float_of int_of detrend load file_unit solver active).
  Notation read := (read_surface detrend load file_unit).
  Notation ask := (asked float_of int_of).
  Notation unit_of a := (unit_name a file_unit).

  (** Heights given in [h] become heights in the unit of lengths. *)
  Theorem C106_heights : forall a t t0 h x y, hw_height_unit a = Some h -> hw_detrend a = None ->
    In (h, x) metres -> In (unit_of a, y) metres ->
    (forall asked_unit, load asked_unit = Ret t0) -> read a = Ret t ->
    sc_sizes t = sc_sizes t0
    /\ forall i j, a_val (heights (sc_surface t)) i j * y
                   = match hw_height_fac a with Some c => c | None => 1 end * (a_val (heights (sc_surface t0)) i j * x).
  Proof.
    intros a t t0 h x y HU DT X Y L Rd. destruct (C67_surface _ _ _ _ _ Rd) as (t1 & L1 & L2 & L3 & P).
    assert (T : t1 = t0).
    { destruct (hw_size_unit a) as [u|] eqn:SU; [specialize (L1 u eq_refl); rewrite L in L1; congruence|].
      destruct file_unit as [u|]; [specialize (L2 u eq_refl eq_refl); rewrite L in L2; congruence|].
      specialize (L3 eq_refl eq_refl). rewrite L in L3. congruence. }
    subst t1. destruct P as [SZ _ (f & sf1 & sf2 & _ & F & _ & _ & H1 & D1 & _ & _ & _ & H2 & _)]. split; [exact SZ|].
    intros i j. rewrite H2, (D1 DT), H1. destruct (F h HU) as (x' & y' & X' & Y' & E).
    apply metres_ok in X. apply metres_ok in Y. assert (x' = x) by congruence. assert (y' = y) by congruence. subst x' y'.
    transitivity (f * y * a_val (heights (sc_surface t0)) i j); [ring|]. rewrite E. ring.
  Qed.
  (** Any other name is a KeyError, before anything is written. *)
  Theorem C106_unknown_unit : forall a t0 h, hw_height_unit a = Some h -> (forall asked_unit, load asked_unit = Ret t0) ->
    (forall x, ~ In (h, x) metres) \/ (forall x, ~ In (unit_of a, x) metres) -> main a = ([], Exc KeyErr).
  Proof.
    intros a t0 h HU L N. unfold hw_main, read_surface. rewrite L. cbn [bind].
    assert (HF : height_factor a (surface_unit a file_unit) = Exc KeyErr).
    { unfold height_factor. rewrite HU, unit_is. destruct N as [N|N]; apply metres_unknown in N.
      - rewrite N. reflexivity.
      - rewrite N. destruct (unit_to_meters h) as [x|e] eqn:E; [reflexivity|]. cbn [bind].
        unfold unit_to_meters in E. repeat match type of E with (if ?b then _ else _) = _ => destruct b end; congruence. }
    rewrite HF. reflexivity.
  Qed.

  Lemma table_ok : forall young a unit rw e, young = reported_modulus a -> pressure_unit a e ->
    combine (header (if Req_EM_T young 1 then true else false) unit) (row_data rw)
    = titled e unit (r_elastic rw) (r_rigid rw) (r_gap rw) (r_load rw) (r_pressure rw) (r_area rw) (r_fraction rw).
  Proof.
    assert (A1 : forall p q r : string, ((p ++ q) ++ r = p ++ (q ++ r))%string).
    { induction p as [|c p IH]; intros q r; [reflexivity|]. cbn [String.append]. rewrite IH. reflexivity. }
    intros young a unit rw e -> [E1 E2]. destruct (Req_EM_T (reported_modulus a) 1) as [Z|Z].
    - rewrite (E1 Z). unfold header, row_data, titled, in_unit. cbn [combine String.append]. rewrite !A1. reflexivity.
    - rewrite (E2 Z). unfold header, row_data, titled, in_unit. cbn [combine String.append]. rewrite !A1. reflexivity.
  Qed.
  Lemma young_reported : forall a t sb young, hw_substrate a t = Ret (sb, young) -> young = reported_modulus a.
  Proof.
    intros a t sb young H. unfold hw_substrate in H. unfold reported_modulus. destruct (String.eqb (hw_boundary a) "periodic").
    - apply bindRet in H. destruct H as (s & _ & H). congruence.
    - destruct (String.eqb (hw_boundary a) "nonperiodic"); [|discriminate]. destruct (hw_thickness a); [discriminate|].
      destruct (Req_bool _ 0); [discriminate|]. apply bindRet in H. destruct H as (s & _ & H). congruence.
  Qed.
  Lemma emit_one : forall young sizes unit a single i sf o ev r, emit young sizes unit a single i sf o = (ev, r) ->
    exists hd rw, hd = header (if Req_EM_T young 1 then true else false) unit /\ rows ev = [rw] /\ In (Row hd rw) ev
    /\ (forall hd' rw', In (Row hd' rw') ev -> hd' = hd /\ rw' = rw)
    /\ forall n m mc, In (Saved n m mc) ev -> exists k fn, option_of k a = Some fn /\ n = file_name single fn i /\ is_kind k m
       /\ (first_map a k -> mc = combine hd (row_data rw)) /\ (~ first_map a k -> mc = []).
  Proof.
    intros young sizes unit a single i sf o ev r H. unfold emit in H.
    destruct (dump young sizes unit sf (so_u o) (so_f o) (so_offset o)) as [hd rw] eqn:D.
    assert (HD : hd = header (if Req_EM_T young 1 then true else false) unit) by (unfold dump in D; injection D as <- _; reflexivity).
    clear D. exists hd, rw. split; [exact HD|].
    assert (KK : forall k k' fn', (rank k' < rank k)%nat -> option_of k' a = Some fn' -> ~ first_map a k).
    { intros k k' fn' L O F. rewrite (F k' L) in O. discriminate. }
    assert (FF : forall k, (forall k', (rank k' < rank k)%nat -> option_of k' a = None) -> first_map a k) by auto.
    destruct (hw_contact_fn a) as [f1|] eqn:O1, (hw_pressure_fn a) as [f2|] eqn:O2, (hw_displ_fn a) as [f3|] eqn:O3, (hw_gap_fn a) as [f4|] eqn:O4;
      cbn [save] in H; try (destruct (binop _ _ _) as [d|e]); cbn [save fst app] in H; injection H as <- <-; destruct (hw_netcdf a); cbn [app];
      (split; [reflexivity|]); (split; [cbn [In]; auto|]);
      (split; [intros hd' rw' X; cbn [In] in X; repeat destruct X as [X|X]; try discriminate; try contradiction; injection X as <- <-; auto|]);
      intros n m mc X; cbn [In] in X; repeat destruct X as [X|X]; try discriminate; try contradiction; injection X as <- <- <-;
      first [exists KContact; eexists; split; [exact O1|]; split; [reflexivity|]; split; [exact I|]
            |exists KPressure; eexists; split; [exact O2|]; split; [reflexivity|]; split; [exact I|]
            |exists KDispl; eexists; split; [exact O3|]; split; [reflexivity|]; split; [exact I|]
            |exists KGap; eexists; split; [exact O4|]; split; [reflexivity|]; split; [exact I|]];
      split; intros FM; try reflexivity;
      try (exfalso; apply FM; intros [] L; cbn in L; try lia; cbn [option_of]; assumption);
      exfalso; first [solve [eapply (KK _ KContact); [|exact O1|exact FM]; cbn; lia]|solve [eapply (KK _ KPressure); [|exact O2|exact FM]; cbn; lia]
                     |solve [eapply (KK _ KDispl); [|exact O3|exact FM]; cbn; lia]].
  Qed.
  Lemma run_one : forall sb young sizes unit a single cs i h w ev r,
    hw_run solver active sb young sizes unit a single cs i h w = (ev, r) -> forall x, In x ev ->
    exists j sf o ev' r' rw, emit young sizes unit a single (i + j) sf o = (ev', r') /\ In x ev' /\ rows ev' = [rw]
      /\ nth_error (rows ev) j = Some rw.
  Proof.
    intros sb young sizes unit a single. induction cs as [|c cs IH]; intros i h w ev r H x X; cbn [hw_run] in H.
    - injection H as <- <-. destruct X.
    - destruct (hw_step solver active sb sizes a c h w) as [w1 [[o h1]|e]]; [|injection H as <- <-; destruct X].
      destruct (emit young sizes unit a single i (snd w1) o) as [e1 [[]|e]] eqn:E.
      + destruct (hw_run solver active sb young sizes unit a single cs (S i) h1 w1) as [e2 r2] eqn:Rn. injection H as <- <-.
        destruct (emit_one _ _ _ _ _ _ _ _ _ _ E) as (hd & rw & _ & RW & _).
        assert (RA : rows (e1 ++ e2) = rw :: rows e2) by (unfold rows in *; rewrite flat_map_app, RW; reflexivity).
        apply in_app_or in X. destruct X as [X|X].
        * exists 0%nat, (snd w1), o, e1, (Ret tt), rw. rewrite Nat.add_0_r, RA. auto.
        * destruct (IH _ _ _ _ _ Rn x X) as (j & sf & o' & ev' & r' & rw' & E' & X' & RW' & N'). exists (S j), sf, o', ev', r', rw'.
          rewrite <- Nat.add_succ_comm, RA. auto.
      + injection H as <- <-. destruct (emit_one _ _ _ _ _ _ _ _ _ _ E) as (hd & rw & _ & RW & _).
        exists 0%nat, (snd w1), o, e1, (Exc e), rw. rewrite Nat.add_0_r, RW. auto.
  Qed.

  (** Every line of the log has these titles... *)
  Theorem C106_titles : forall a ev r hd rw e, main a = (ev, r) -> pressure_unit a e -> In (Row hd rw) ev ->
    hd = map fst (titled e (unit_of a) 0 0 0 0 0 0 0).
  Proof.
    intros a ev r hd rw e H PU X. destruct (hw_displacement a) as [d|] eqn:D.
    { destruct (main_displacement float_of int_of detrend load file_unit solver active a d D) as [e0 E]. rewrite E in H. injection H as <- _. destruct X. }
    destruct (main_run _ _ _ _ _ _ _ _ _ _ H D) as [[-> _]|(t & sb & young & y & o & _ & Sb & _ & _ & Rn)]; [destruct X|].
    destruct (run_one _ _ _ _ _ _ _ _ _ _ _ _ Rn _ X) as (j & sf & so & ev' & r' & rw' & E & X' & _).
    destruct (emit_one _ _ _ _ _ _ _ _ _ _ E) as (hd' & rw'' & HD & _ & _ & U & _). destruct (U _ _ X') as [-> _].
    rewrite unit_is in HD. pose proof (table_ok young a (unit_of a) (mkRow 0 0 0 0 0 0 0) e (young_reported _ _ _ _ Sb) PU) as TB.
    rewrite HD. cbn [r_elastic r_rigid r_gap r_load r_pressure r_area r_fraction] in TB. rewrite <- TB. reflexivity.
  Qed.
  (** ... and the first map of every calculation has the numbers of this calculation
      with these titles in its header; the others have nothing. *)
  Theorem C106_header : forall a ev r e n m mc, main a = (ev, r) -> pressure_unit a e -> In (Saved n m mc) ev ->
    exists o k fn i rw, ask a o /\ option_of k a = Some fn /\ n = file_name (snd (plan o)) fn i /\ is_kind k m
      /\ nth_error (rows ev) i = Some rw
      /\ (first_map a k -> mc = titled e (unit_of a) (r_elastic rw) (r_rigid rw) (r_gap rw) (r_load rw) (r_pressure rw) (r_area rw) (r_fraction rw))
      /\ (~ first_map a k -> mc = []).
  Proof.
    intros a ev r e n m mc H PU X. destruct (hw_displacement a) as [d|] eqn:D.
    { destruct (main_displacement float_of int_of detrend load file_unit solver active a d D) as [e0 E]. rewrite E in H. injection H as <- _. destruct X. }
    destruct (main_run _ _ _ _ _ _ _ _ _ _ H D) as [[-> _]|(t & sb & young & y & o & _ & Sb & _ & AS & Rn)]; [destruct X|].
    destruct (run_one _ _ _ _ _ _ _ _ _ _ _ _ Rn _ X) as (j & sf & so & ev' & r' & rw & E & X' & RW & N).
    destruct (emit_one _ _ _ _ _ _ _ _ _ _ E) as (hd & rw' & HD & RW' & _ & _ & S). assert (rw' = rw) by congruence. subst rw'.
    destruct (S n m mc X') as (k & fn & O & NM & KD & F1 & F2). exists o, k, fn, j, rw.
    split; [exact AS|]. split; [exact O|]. split; [exact NM|]. split; [exact KD|]. split; [exact N|]. split; [|exact F2].
    intros FM. rewrite (F1 FM), HD, unit_is. exact (table_ok young a (unit_of a) rw e (young_reported _ _ _ _ Sb) PU).
  Qed.
End Theorems.
Print Assumptions C106_heights.
Print Assumptions C106_unknown_unit.
Print Assumptions C106_titles.
Print Assumptions C106_header.

(** Heights in nanometres, lengths in micrometres; automatic run with a pressure map and a gap map. *)
Definition nm_args : hw_args :=
  mkHw None "periodic" 1 0 None None 10 None None None (Some "µm"%string) None (Some "nm"%string) None None (Some "p"%string) None (Some "g"%string) true.
Example C106_nonvacuous : pressure_unit nm_args "E*" /\ first_map nm_args KPressure /\ ~ first_map nm_args KGap
  /\ (exists t, read_surface ex_detrend (ex_load 1) (Some "m"%string) nm_args = Ret t
      /\ a_val (heights (sc_surface t)) 1%nat 0%nat = 1 / 1000 * a_val (heights (ex_surface 1)) 1%nat 0%nat
      /\ a_val (heights (ex_surface 1)) 1%nat 0%nat <> 0)
  /\ (exists ev n m rw l, ex_main 1 nm_args = (ev, Ret tt) /\ In (Saved n m (("mean elastic (µm)"%string, r_elastic rw) :: l)) ev
      /\ In rw (rows ev))
  /\ ex_main 1 (mkHw None "periodic" 1 0 None None 10 None None None None None (Some "km"%string) None None None None None true) = ([], Exc KeyErr).
Proof.
  assert (PU : pressure_unit nm_args "E*") by (split; [reflexivity|]; intros Z; exfalso; apply Z; reflexivity).
  assert (F1 : first_map nm_args KPressure) by (intros [] L; cbn in L; try lia; reflexivity).
  assert (F2 : ~ first_map nm_args KGap) by (intros F; specialize (F KPressure ltac:(cbn; lia)); discriminate).
  split; [exact PU|]. split; [exact F1|]. split; [exact F2|].
  assert (RD : exists t, read_surface ex_detrend (ex_load 1) (Some "m"%string) nm_args = Ret t) by (eexists; reflexivity).
  destruct RD as (t & RD). split; [|split].
  - exists t. split; [exact RD|].
    destruct (C106_heights ex_detrend (ex_load 1) (Some "m"%string) nm_args t _ "nm" (1 / 1000000000) (1 / 1000000) eq_refl eq_refl
      ltac:(cbn; auto) ltac:(cbn; auto) (fun _ => eq_refl) RD) as [_ HH]. specialize (HH 1%nat 0%nat). cbn [nm_args hw_height_fac sc_surface] in HH.
    split; [lra|]. cbn. lra.
  - assert (AS : asked ex_float ex_int nm_args None) by (constructor; reflexivity).
    assert (GT : sf_grid (sc_surface t) = [2; 2]%nat /\ sc_sizes t = [2; 2]) by (injection RD as <-; split; reflexivity). destruct GT as [GT ST].
    destruct (C67_accepts ex_float ex_int ex_detrend (ex_load 1) (Some "m"%string) ex_solver ex_active nm_args t None 2 2 2 2 ex_shaped
      RD GT ST ltac:(lia) ltac:(lia) (or_introl eq_refl) (or_introl eq_refl) ltac:(cbn; lra) eq_refl AS) as [ev E].
    destruct (C67_output _ _ _ _ _ _ _ _ _ _ E eq_refl) as [[_ [e Q]]|(t' & sb & young & o' & ss & _ & _ & A' & _ & _ & _ & _ & Fin)]; [discriminate|].
    destruct (Fin eq_refl) as [L Mc]. rewrite (C67_asked _ _ _ _ _ A' AS eq_refl) in L. cbn [plan fst] in L. rewrite repeat_length in L.
    destruct ss as [|s0 ss]; [discriminate|]. destruct (Mc KPressure "p"%string 0%nat s0 eq_refl eq_refl) as (mp & I0 & (e0 & ->)).
    assert (SV : forall n m, In (n, m) (files ev) -> exists mc, In (Saved n m mc) ev).
    { intros n m IN. unfold files in IN. apply in_flat_map in IN. destruct IN as ([| |fn m' mc] & I1 & I2); cbn in I2; try contradiction.
      destruct I2 as [[= -> ->]|[]]. exists mc. exact I1. }
    destruct (SV _ _ I0) as (mc & I1).
    destruct (C106_header _ _ _ _ _ _ _ _ _ _ "E*" _ _ _ E PU I1) as (o & k & fn & i & rw & _ & _ & _ & KD & NR & FM & _).
    destruct k; cbn in KD; try contradiction. rewrite (FM F1) in I1. do 4 eexists. eexists. split; [exact E|]. split; [exact I1|].
    exact (nth_error_In _ _ NR).
  - apply (C106_unknown_unit _ _ _ _ _ _ _ _ (mkScan (ex_surface 1) [2; 2] true) "km"); [reflexivity|intros; reflexivity|]. left.
    intros x [X|[X|[X|[X|[X|[X|[]]]]]]]; discriminate.
Qed.
