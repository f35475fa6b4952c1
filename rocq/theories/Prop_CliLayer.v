(** * C103 The command line and the contact problem on layers and half-spaces

    [hw_main] with [hw_solver] and --boundary=periodic, with or without
    --thickness: its frames against the contact problem on the substrate which
    the package builds from the same arguments. *)
From Coq Require Import Reals ZArith Lia Lra List Arith Bool String FunctionalExtensionality.
From Coquelicot Require Import Complex.
From Verif Require Import Py FFT_Base HalfSpace_Model HalfSpace_Spec HalfSpace_Proofs HalfSpace_Results
  Systems_Model Systems_Spec Systems_Proofs Pipeline_Model Pipeline_Spec Contact_Model Contact_Spec Contact_Proofs Contact_Results
  Signorini_Spec Substrate_Contact_Spec
  HardWall_Model HardWall_Spec HardWall_Proofs HardWall_Results Prop_HardWall Cli_Model Cli_Spec Cli_Results Prop_Cli.
From Verif Require Prop_SubstrateContact.
From Coq Require Import List.
Import ListNotations.
Local Open Scope R_scope.

(** The substrate of the arguments:
    PeriodicFFTElasticHalfSpace(nb_grid_pts, modulus, sizes, thickness=..., poisson=...). *)
Definition substrate_of (a : hw_args) (n m : nat) (lx ly : R) (s : sub) : Prop :=
  construct (mkArgs [n; m] (hw_modulus a) [lx; ly] None (hw_thickness a) (hw_poisson a) None) = Ret s.

Section Theorems.
  Variable o : options.
  Variable rms : surface -> R.
  Variable float_of : string -> res R.
  Variable int_of : string -> res Z.
  Variable detrend : string -> surface -> res surface.
  Variable load : option string -> res scanned.
  Variable file_unit : option string.
  Variable active : surface -> option R -> option R -> zone.
  Notation main := (hw_main float_of int_of detrend load file_unit (hw_solver o rms) active).
  Notation read := (read_surface detrend load file_unit).

  Lemma layer_args : forall a n m lx ly, physical a lx ly ->
    pos_args (mkArgs [n; m] (hw_modulus a) [lx; ly] None (hw_thickness a) (hw_poisson a) None).
  Proof.
    intros a n m lx ly (LX & LY & YO & NU & TH & HA). split; [intros z [<-|[<-|[]]]; assumption|].
    split; [exact YO|]. split; [exact NU|]. split; [exact TH|]. cbn. discriminate.
  Qed.

  (** Every frame is an answer of [evaluate_disp]. *)
  Theorem C103_states : forall a ev r t n m lx ly, main a = (ev, r) -> hw_displacement a = None -> hw_netcdf a = true ->
    hw_boundary a = "periodic"%string -> read a = Ret t -> scanned_as t n m lx ly -> physical a lx ly -> frames ev <> [] ->
    exists s k, substrate_of a n m lx ly s /\ 0 < k /\ net_stiffness s [n; m] k
      /\ (forall th, hw_thickness a = Some th -> k = uniaxial_stiffness (hw_modulus a) (hw_poisson a) th * cell_area n m lx ly)
      /\ forall u f x l ar, In (u, f, x, l, ar) (frames ev) -> elastic_response s [n; m] (a_val f) (a_val u).
  Proof.
    intros a ev r t n m lx ly H D NC B Rd SC PH NE.
    destruct (C67_output _ _ _ _ _ _ _ _ _ _ H D) as [[E0 _]|(t' & sb & young & q & ss & Rd' & Sb & A & Ex & _ & Fr & _)]; [rewrite E0 in NE; destruct (NE eq_refl)|].
    rewrite Rd in Rd'. injection Rd' as <-. pose proof SC as (G & SZ & AR).
    destruct (substrate_cases _ _ _ _ _ _ _ _ Sb G SZ) as [(_ & s & C0 & ES)|(Q & _)]; [|rewrite B in Q; discriminate].
    pose proof (layer_args a n m lx ly PH) as PA.
    destruct (Prop_SubstrateContact.C93_stiffness _ s C0 PA ltac:(discriminate)) as (k & KP & K & _ & _ & KT & _).
    exists s, k. split; [exact C0|]. split; [exact KP|]. split; [exact K|]. split.
    { intros th ET. rewrite (KT th eq_refl ET). unfold cell_area. rewrite mult_INR. reflexivity. }
    intros u f x l ar I. rewrite Fr, NC in I. apply in_map_iff in I. destruct I as (z & E & I).
    unfold frame_of in E. injection E as <- <- <- <- <-.
    destruct (cli_calculation _ _ _ _ _ _ _ _ _ _ _ _ _ _ _ _ Rd Sb SC PH Ex z I) as (J & _ & UV & _). rewrite UV. unfold forces in *.
    pose proof (hx_solver _ _ _ _ _ _ _ Ex z I) as S. destruct (hw_solver_inv _ _ _ _ _ _ _ _ _ _ S) as (p & _ & S').
    destruct (hw_substrate_inv _ _ _ _ _ _ Sb G) as (_ & _ & N & M & _).
    pose proof (plastic_nonneg _ _ _ _ _ _ _ _ _ Rd SC PH N M) as NN.
    destruct (solver_response _ _ _ _ _ _ NN S') as (_ & CSh & OUT & UU). rewrite <- CSh, J in OUT. clear S S' CSh UV.
    set (F := a_val (o_jac (hd_opt z))) in *. rewrite ES in UU.
    destruct (Prop_SubstrateContact.disp_comply _ s C0 PA F) as (U & EU & VU). exists U. split; [exact EU|]. intros i j GR. rewrite UU.
    assert (GS : sb_sub (periodic s) = [n; m]) by (cbn [periodic sb_sub]; exact (hs_grid _ _ C0)).
    assert (W : forall g' ev' (J' : field), g' = [n; m] -> write g' 0 (respond g' ev' (fun p => - J' (px p) (py p)))
       = write [n; m] 0 (respond [n; m] ev' (fun p => - J' (px p) (py p)))) by (intros; subst; reflexivity).
    rewrite (W _ _ _ GS). rewrite (write_in _ [n; m] _ _ i j GR). unfold respond. cbn [periodic sb_disp].
    replace (write [n; m] 0 (fun p : pt [n; m] => - F (px p) (py p))) with (fun x y => - F x y); [cbn [cli_periodic a_grid] in EU; rewrite EU; reflexivity|].
    apply functional_extensionality. intros i'. apply functional_extensionality. intros j'.
    unfold write. destruct (bool_dec _ _) as [Bq|Bq]; [reflexivity|]. rewrite OUT; [ring|]. intros G'. apply Bq.
    apply inside_true. exact G'.
  Qed.

  (** How far a frame is from the solution of the contact problem at its position,
      for any heights [h]: from its violations alone. *)
  Theorem C103_error : forall a ev r t n m lx ly s k, main a = (ev, r) -> hw_displacement a = None -> hw_netcdf a = true ->
    hw_boundary a = "periodic"%string -> read a = Ret t -> scanned_as t n m lx ly -> physical a lx ly ->
    substrate_of a n m lx ly s -> net_stiffness s [n; m] k ->
    forall u f x l ar h Fs us, In (u, f, x, l, ar) (frames ev) -> touching s [n; m] h x Fs us ->
    (forall eps tau, (forall i j, on_grid [n; m] i j -> - tau <= a_val f i j /\ - eps <= gap h x (a_val u) i j) ->
      let b := inner [n; m] (a_val f) (gap h x (a_val u)) + tau * HalfSpace_Spec.total [n; m] (gap h x us)
               + eps * HalfSpace_Spec.total [n; m] Fs in
      0 <= distance [n; m] (a_val f) (a_val u) Fs us <= b
      /\ INR n * INR m * (mean [n; m] (a_val f) - mean [n; m] Fs) ^ 2 <= k * b)
    /\ (forall eps, 0 <= eps -> nearly_in_contact [n; m] h x (a_val f) (a_val u) eps ->
      Rabs (sqrt (mean [n; m] (a_val f)) - sqrt (mean [n; m] Fs)) <= sqrt (k * eps))
    /\ (nearly_in_contact [n; m] h x (a_val f) (a_val u) 0 ->
      forall i j, on_grid [n; m] i j -> a_val f i j = Fs i j /\ a_val u i j = us i j).
  Proof.
    intros a ev r t n m lx ly s k H D NC B Rd SC PH SB K u f x l ar h Fs us I C.
    assert (NE : frames ev <> []) by (intro Q; rewrite Q in I; destruct I).
    destruct (C103_states _ _ _ _ _ _ _ _ H D NC B Rd SC PH NE) as (s' & k' & SB' & _ & _ & _ & RS).
    unfold substrate_of in SB, SB'. rewrite SB in SB'. injection SB' as <-. specialize (RS _ _ _ _ _ I).
    pose proof (layer_args a n m lx ly PH) as PA. set (ar' := mkArgs _ _ _ _ _ _ _) in *.
    assert (Q : a_q0 ar' <> Some 0) by discriminate. split; [|split].
    - intros eps tau V b. exact (Prop_SubstrateContact.C93_distance ar' s h x _ _ Fs us eps tau k SB PA Q RS C V K).
    - intros eps PE V. exact (proj1 (Prop_SubstrateContact.C93_load_error ar' s h x _ _ Fs us eps k SB PA Q RS C PE V K)).
    - intros V. exact (proj2 (Prop_SubstrateContact.C93_load_error ar' s h x _ _ Fs us 0 k SB PA Q RS C (Rle_refl 0) V K) eq_refl).
  Qed.

  (** Two frames without violation, at any two positions, of an elastic run or not:
      the net forces follow the positions, no faster than the net stiffness. *)
  Theorem C103_curve : forall a ev r t n m lx ly s k, main a = (ev, r) -> hw_displacement a = None -> hw_netcdf a = true ->
    hw_boundary a = "periodic"%string -> read a = Ret t -> scanned_as t n m lx ly -> physical a lx ly ->
    substrate_of a n m lx ly s -> net_stiffness s [n; m] k ->
    forall h u f x l ar u' f' x' l' ar', In (u, f, x, l, ar) (frames ev) -> In (u', f', x', l', ar') (frames ev) ->
    nearly_in_contact [n; m] h x (a_val f) (a_val u) 0 -> nearly_in_contact [n; m] h x' (a_val f') (a_val u') 0 ->
    x <= x' ->
    mean [n; m] (a_val f) <= mean [n; m] (a_val f') <= mean [n; m] (a_val f) + k * (x' - x)
    /\ 0 <= mean [n; m] (a_val f) /\ k * (mean [n; m] h + x) <= mean [n; m] (a_val f).
  Proof.
    intros a ev r t n m lx ly s k H D NC B Rd SC PH SB K h u f x l ar u' f' x' l' ar' I I' V V' L.
    assert (NE : frames ev <> []) by (intro Q; rewrite Q in I; destruct I).
    destruct (C103_states _ _ _ _ _ _ _ _ H D NC B Rd SC PH NE) as (s' & k' & SB' & _ & _ & _ & RS).
    unfold substrate_of in SB, SB'. rewrite SB in SB'. injection SB' as <-.
    assert (TT : forall h0 x0 F0 u0, elastic_response s [n; m] F0 u0 -> nearly_in_contact [n; m] h0 x0 F0 u0 0 -> touching s [n; m] h0 x0 F0 u0).
    { intros h0 x0 F0 u0 R0 V0. split; [exact R0|]. intros i j GR. destruct (V0 i j GR) as (V1 & V2 & V3). split; [exact V1|]. split; [lra|].
      destruct (Rle_lt_or_eq_dec _ _ V1) as [P|P]; [specialize (V3 P)|rewrite <- P; ring].
      replace (gap h0 x0 u0 i j) with 0 by lra. ring. }
    pose proof (layer_args a n m lx ly PH) as PA.
    exact (Prop_SubstrateContact.C93_load_curve _ s h x x' _ _ _ _ k SB PA ltac:(discriminate)
      (TT _ _ _ _ (RS _ _ _ _ _ I) V) (TT _ _ _ _ (RS _ _ _ _ _ I') V') L K).
  Qed.
End Theorems.
Print Assumptions C103_states.
Print Assumptions C103_error.
Print Assumptions C103_curve.

(** The run on a layer of thickness one has twenty frames, its substrate exists,
    and there is a solution of the contact problem at the position of each. *)
Example C103_nonvacuous : exists t ev s k,
  read_surface ex_detrend (ex_load 1) (Some "m"%string) (ex_layer None) = Ret t /\ scanned_as t 2 2 2 2
  /\ physical (ex_layer None) 2 2 /\ ex_cli 1 (ex_layer None) = (ev, Ret tt) /\ List.length (frames ev) = 20%nat
  /\ substrate_of (ex_layer None) 2 2 2 2 s /\ net_stiffness s [2; 2]%nat k /\ k = 3 / 2
  /\ forall u f x l ar, In (u, f, x, l, ar) (frames ev) -> exists Fs us, touching s [2; 2]%nat (a_val (heights (ex_surface 1))) x Fs us.
Proof.
  destruct C91_nonvacuous_layer as (PH & _ & t & ev & Rd & SC & E). exists t, ev.
  assert (L : List.length (frames ev) = 20%nat).
  { assert (A : asked ex_float ex_int (ex_layer None) None) by (constructor; reflexivity).
    destruct (C67_output _ _ _ _ _ _ _ _ _ _ E eq_refl) as [[_ [e Q]]|(t' & sb & young & o' & ss & _ & _ & A' & _ & _ & Fr & _ & Fin)]; [discriminate|].
    rewrite (C67_asked _ _ _ _ _ A' A eq_refl) in *. rewrite Fr. cbn [ex_layer hw_netcdf]. rewrite map_length, (proj1 (Fin eq_refl)). reflexivity. }
  assert (NE : frames ev <> []) by (intro Q; rewrite Q in L; discriminate L).
  destruct (C103_states _ _ _ _ _ _ _ _ _ _ _ _ _ _ _ _ E eq_refl eq_refl eq_refl Rd SC PH NE) as (s & k & SB & _ & K & KT & _).
  exists s, k. split; [exact Rd|]. split; [exact SC|]. split; [exact PH|]. split; [exact E|]. split; [exact L|].
  split; [exact SB|]. split; [exact K|]. split.
  - rewrite (KT 1 eq_refl). unfold uniaxial_stiffness, cell_area. cbn. field.
  - intros u f x l ar _. pose proof (layer_args (ex_layer None) 2 2 2 2 PH) as PA.
    destruct (Prop_SubstrateContact.C93_one_state _ s (a_val (heights (ex_surface 1))) x SB PA ltac:(discriminate)) as (Fs & us & C & _).
    exists Fs, us. exact C.
Qed.
