(** * What the solver returns on the substrates of the command line *)
From Coq Require Import Reals ZArith Lia Lra List Arith Bool String FunctionalExtensionality.
From Coquelicot Require Import Complex Coquelicot.
From Verif Require Import Py FFT_Base HalfSpace_Model HalfSpace_Spec HalfSpace_Proofs HalfSpace_Results
  HalfSpace_Results2 HalfSpace_Results3 Free_Model Free_Spec Free_Proofs Systems_Model Systems_Spec Systems_Proofs Factory_Model
  Pipeline_Model Pipeline_Spec Pipeline_Results Prop_Free Contact_Model Contact_Spec Contact_Proofs Contact_Results Contact_Results2
  HardWall_Model HardWall_Spec HardWall_Proofs HardWall_Results Cli_Model Cli_Spec.
From Verif Require CCG_Model CCG_Real CCG_Spec CCG_Proofs CCG_Results CCG_Results2 CCG_Returns.
From Coq Require Import List.
Import ListNotations.
Local Open Scope R_scope.

Ltac fext := let x := fresh "x" in apply functional_extensionality; intros x.

(** ** The solver *)
Lemma hw_solver_given : forall o rms sb sf hd off force p maxiter,
  hw_solver o rms sb sf hd off force (Some p) maxiter = ccg_solver o sb sf hd (mkSa off force p maxiter).
Proof. intros. reflexivity. Qed.

(** The tolerance the solver works with. *)
Definition chosen_tolerance (rms : surface -> R) (sf : surface) (off pentol : option R) : CCG_Model.result R :=
  CCG_Model.choose_pentol (CCG_Real.ROps unit)
    (CCG_Model.mkArgs R unit false false 2 off pentol (rms sf) (mean_nat (sf_grid sf)) None)
    (asum (heights sf)) (size (sf_grid sf)).
Lemma hw_solver_chosen : forall o rms sb sf hd off force pentol maxiter p,
  chosen_tolerance rms sf off pentol = CCG_Model.Ok p ->
  hw_solver o rms sb sf hd off force pentol maxiter = ccg_solver o sb sf hd (mkSa off force p maxiter).
Proof.
  intros o rms sb sf hd off force pentol maxiter p H. unfold hw_solver, hw_call, ccg_solver, CCG_Model.solve, CCG_Model.solve_trace.
  cbn [CCG_Model.a_distributed CCG_Model.a_plain_array andb].
  match goal with |- context [CCG_Model.choose_pentol ?K ?A ?h ?n] =>
    assert (E : CCG_Model.choose_pentol K A h n = CCG_Model.Ok p) by exact H; rewrite E end.
  reflexivity.
Qed.
Lemma hw_solver_raises : forall o rms sb sf hd off force pentol maxiter e,
  chosen_tolerance rms sf off pentol = CCG_Model.Raise e ->
  hw_solver o rms sb sf hd off force pentol maxiter = Exc (exception e).
Proof.
  intros o rms sb sf hd off force pentol maxiter e H. unfold hw_solver, hw_call, CCG_Model.solve, CCG_Model.solve_trace.
  cbn [CCG_Model.a_distributed CCG_Model.a_plain_array andb].
  match goal with |- context [CCG_Model.choose_pentol ?K ?A ?h ?n] =>
    assert (E : CCG_Model.choose_pentol K A h n = CCG_Model.Raise e) by exact H; rewrite E end.
  reflexivity.
Qed.
Lemma hw_solver_inv : forall o rms sb sf hd off force pentol maxiter r,
  hw_solver o rms sb sf hd off force pentol maxiter = Ret r ->
  exists p, chosen_tolerance rms sf off pentol = CCG_Model.Ok p /\ ccg_solver o sb sf hd (mkSa off force p maxiter) = Ret r.
Proof.
  intros o rms sb sf hd off force pentol maxiter r H.
  destruct (chosen_tolerance rms sf off pentol) as [p|e] eqn:E.
  - exists p. split; [reflexivity|]. rewrite <- (hw_solver_chosen _ _ _ _ _ _ _ _ _ _ E). exact H.
  - rewrite (hw_solver_raises _ _ _ _ _ _ _ _ _ _ E) in H. discriminate.
Qed.

(** ** Periodic substrates of any stiffness *)
Definition cli_periodic (n m : nat) (lx ly young nu : R) (t : option R) : args := mkArgs [n; m] young [lx; ly] None t nu None.
Definition cli_free (n m : nat) (lx ly e : R) : fargs := mkFargs [n; m] e [lx; ly] None false.

Lemma substrate_cases : forall a t sb young n m lx ly, hw_substrate a t = Ret (sb, young) ->
  sf_grid (sc_surface t) = [n; m] -> sc_sizes t = [lx; ly] ->
  (hw_boundary a = "periodic"%string
   /\ exists s, construct (cli_periodic n m lx ly (hw_modulus a) (hw_poisson a) (hw_thickness a)) = Ret s /\ sb = periodic s)
  \/ (hw_boundary a = "nonperiodic"%string /\ hw_thickness a = None
      /\ exists s, free_construct (cli_free n m lx ly (hw_modulus a / (1 - hw_poisson a ^ 2))) = Ret s /\ sb = free s).
Proof.
  intros a t sb young n m lx ly H G SZ. unfold hw_substrate in H. rewrite G, SZ in H.
  destruct (String.eqb_spec (hw_boundary a) "periodic") as [B|B].
  - left. split; [exact B|]. unfold call_periodic in H.
    cbn [kw_unknown kw_check given orb kw_young default kw_q0 kw_thick kw_poisson kw_engine] in H.
    fold (cli_periodic n m lx ly (hw_modulus a) (hw_poisson a) (hw_thickness a)) in H.
    destruct (construct _) as [s|e] eqn:C0; [|discriminate]. injection H as <- _. eauto.
  - destruct (String.eqb_spec (hw_boundary a) "nonperiodic") as [B'|B']; [|discriminate]. right. split; [exact B'|].
    destruct (hw_thickness a); [discriminate|]. split; [reflexivity|]. destruct (Req_bool _ _); [discriminate|].
    unfold call_free in H. cbn [kw_unknown kw_check given orb kw_young default kw_q0 kw_thick kw_poisson kw_engine] in H.
    fold (cli_free n m lx ly (hw_modulus a / (1 - hw_poisson a ^ 2))) in H.
    destruct (free_construct _) as [s|e] eqn:C0; [|discriminate]. injection H as <- _. eauto.
Qed.

Lemma option_cases : forall A (x : option A), (exists y, x = Some y) \/ x = None.
Proof. intros A [y|]; eauto. Qed.

Section Periodic.
  Variables (n m : nat) (lx ly young nu : R) (t : option R).
  Hypothesis LX : 0 < lx.
  Hypothesis LY : 0 < ly.
  Hypothesis YO : 0 < young.
  Hypothesis NU : -1 < nu < 1.
  Hypothesis TH : forall x, t = Some x -> 0 < x /\ nu < 1 / 2.
  Let a := cli_periodic n m lx ly young nu t.

  Lemma cli_pos : pos_args a.
  Proof.
    unfold pos_args, a, cli_periodic. cbn [a_sizes a_young a_poisson a_thick a_q0].
    split; [intros x [<-|[<-|[]]]; assumption|]. split; [exact YO|]. split; [exact NU|]. split; [exact TH|]. discriminate.
  Qed.

  Variable s : sub.
  Hypothesis CO : construct a = Ret s.

  Lemma cli_pos_grid : (0 < n)%nat /\ (0 < m)%nat.
  Proof. pose proof (gx_pos a s CO) as [A B]. unfold gx, gy in *. exact (conj A B). Qed.

  Lemma cli_area : area_per_pt (s_hs s) = cell_area n m lx ly /\ 0 < cell_area n m lx ly.
  Proof.
    destruct cli_pos_grid as [N M].
    assert (E : area_per_pt (s_hs s) = cell_area n m lx ly).
    { destruct (construct_inv _ s CO) as [Nw _]. rewrite (area_eq _ _ Nw). unfold npts, cell_area. rewrite mult_INR.
      rewrite (nx_gx _ s CO), (ny_gy _ s CO).
      destruct (sizes_eq a s CO) as (A & B & _). rewrite A, B. reflexivity. }
    split; [exact E|]. unfold cell_area. apply Rdiv_lt_0_compat; [apply Rmult_lt_0_compat; assumption|]. apply lt_0_INR. nia.
  Qed.

  Lemma cli_stiffness : forall k l, (k < n)%nat -> (l < m)%nat ->
    0 < s_ss s k l /\ s_gf s k l = / s_ss s k l /\ s_ss s k l = wave_stiffness young nu t n m lx ly k l.
  Proof.
    intros k l Hk Hl. pose proof cli_pos as CP.
    assert (Hk' : (k < nx (s_hs s))%nat) by (rewrite (nx_gx _ s CO); exact Hk).
    assert (Hl' : (l < ny (s_hs s))%nat) by (rewrite (ny_gy _ s CO); exact Hl).
    pose proof (gf_val _ s CO CP k l Hk' Hl') as GV. pose proof (ss_val _ s CO CP k l Hk' Hl') as SV.
    destruct (construct_inv _ s CO) as [Nw _]. destruct (zero_thick_q0 _ _ Nw) as [Q _]. cbn [a cli_periodic a_q0] in Q.
    unfold zeroed in GV, SV. rewrite Q, andb_false_r in GV, SV. pose proof (sigma_pos _ s CO CP k l Hk' Hl') as P.
    split; [rewrite SV; exact P|]. split; [rewrite GV, SV; field; lra|]. clear GV SV P.
    assert (G : forall k l, (k < n)%nat -> (l < m)%nat -> on_grid (a_grid a) k l) by (intros k' l' A B; exact (conj A B)).
    unfold wave_stiffness. destruct (andb (Nat.eqb k 0) (Nat.eqb l 0)) eqn:Z.
    - apply andb_prop in Z. destruct Z as [Z1 Z2]. apply Nat.eqb_eq in Z1, Z2. subst k l. destruct (option_cases _ t) as [(t0 & T)|T].
      + rewrite (ss_thick_0 a s t0 CO CP eq_refl T), T. reflexivity.
      + destruct (ss_default a s CO CP eq_refl (or_introl T)) as (D & X & Y).
        assert (Y' : (2 <= m)%nat) by (destruct Y as [Y|Y]; [discriminate Y|exact Y]). clear Y.
        assert (X' : (2 <= n)%nat) by exact X. rewrite D. change (Nat.eqb (List.length (a_grid a)) 1) with false. cbv iota.
        rewrite (ss_infinite a s 1 0 CO CP) by (try (left; exact T); try (apply G; lia); unfold zero_wave; lia).
        rewrite (ss_infinite a s 0 1 CO CP) by (try (left; exact T); try (apply G; lia); unfold zero_wave; lia).
        rewrite T. unfold a, cli_periodic. cbn [a_young a_poisson a_grid a_sizes]. unfold cell_size. cbn [List.length nth Nat.min Nat.sub].
        field.
    - assert (NZ : ~ zero_wave k l).
      { unfold zero_wave. intros [-> ->]. discriminate. }
      destruct (option_cases _ t) as [(t0 & T)|T].
      + rewrite (ss_thick a s k l t0 CO CP (G k l Hk Hl) NZ eq_refl T), T. reflexivity.
      + rewrite (ss_infinite a s k l CO CP (G k l Hk Hl) NZ (or_introl T)), T. reflexivity.
  Qed.

  Lemma cli_periodic_field : forall j : field,
    periodic_state young nu t n m lx ly (fun x y => j x y / cell_area n m lx ly) (write [n; m] 0 (respond [n; m] (evaluate_disp s) (fun p => - j (px p) (py p)))).
  Proof.
    intros j k l Hk Hl. destruct cli_area as [EA PA]. destruct (cli_stiffness k l Hk Hl) as (SP & GS & <-).
    pose proof (disp_multiplier _ s CO) as Mu. change (a_grid a) with [n; m] in Mu.
    pose proof (respond_fft [n; m] _ _ _ Mu (fun p => - j (px p) (py p)) k l (conj Hk Hl)) as E.
    cbn [gx gy nth] in E. rewrite E. unfold GF. rewrite GS, EA.
    set (pr := fun x y => j x y / cell_area n m lx ly).
    replace (fft2 n m (write [n; m] 0 (fun p : pt [n; m] => - j (px p) (py p))) k l)
      with (RtoC (- cell_area n m lx ly) * fft2 n m pr k l)%C.
    - rewrite !Cmult_assoc, <- !RtoC_mult.
      replace (s_ss s k l * - / cell_area n m lx ly * / s_ss s k l * - cell_area n m lx ly) with 1 by (field; lra).
      rewrite Cmult_1_l. reflexivity.
    - rewrite <- fft2_scal. apply fft2_ext. intros x y Hx Hy. assert (Gxy : on_grid [n; m] x y) by exact (conj Hx Hy).
      rewrite (write_in _ _ _ _ _ _ Gxy). unfold pr, px, py. cbn [proj1_sig fst snd]. change (- cell_area n m lx ly * (j x y / cell_area n m lx ly) = - j x y). field. lra.
  Qed.
End Periodic.

(** ** Half-space without periodicity *)
Section Free.
  Variables (n m : nat) (lx ly e : R).
  Hypothesis LX : 0 < lx.
  Hypothesis LY : 0 < ly.
  Variable s : fsub.
  Hypothesis CO : free_construct (cli_free n m lx ly e) = Ret s.

  Lemma cli_free_grid : f_dom s = [(2 * n)%nat; (2 * m)%nat] /\ (0 < n)%nat /\ (0 < m)%nat
    /\ area_per_pt (f_hs s) = cell_area n m lx ly /\ 0 < cell_area n m lx ly.
  Proof.
    destruct (free_inv _ s CO) as (L & [_ _ [P1 P2] _ _ _ A _] & D & _). cbn [cli_free fa_grid fa_sizes] in *.
    destruct (A L) as (_ & _ & _ & _ & E). split; [exact D|]. unfold gx, gy in *. cbn [nth] in *. split; [exact P1|]. split; [exact P2|].
    split.
    - rewrite E. unfold point_area, cell_area, cell_size. rewrite mult_INR. reflexivity.
    - unfold cell_area. apply Rdiv_lt_0_compat; [apply Rmult_lt_0_compat; assumption|]. apply lt_0_INR. nia.
  Qed.

  Lemma cli_free_field : forall (j : field) young nu, e = contact_modulus young nu ->
    (forall x y, ~ on_grid [n; m] x y -> j x y = 0) ->
    single_state young nu n m lx ly (fun x y => j x y / cell_area n m lx ly)
      (write (f_dom s) 0 (respond (f_dom s) (fun f => free_disp s f false) (fun p => - j (px p) (py p)))).
  Proof.
    intros j young nu EE Z x y Hx Hy. destruct cli_free_grid as (D & N & M & EA & PA).
    assert (C0 : cell_size (fa_sizes (cli_free n m lx ly e)) 0 <> 0) by (unfold cell_size; cbn; lra).
    assert (C1 : cell_size (fa_sizes (cli_free n m lx ly e)) 1 <> 0) by (unfold cell_size; cbn; lra).
    destruct (C34_padded_agrees _ s (fun x y => - j x y) CO C0 C1) as (up & v & w & U1 & U2 & U3 & S1 & S2 & S3 & _ & E2).
    destruct (C33_free_convolution _ s (fun x y => - j x y) false CO C0 C1) as (w' & W1 & _ & W3).
    rewrite U3 in W1. injection W1 as <-. cbn [cli_free fa_grid fa_sizes fa_young] in *. rewrite EE in W3.
    assert (G : on_grid [n; m] x y) by exact (conj Hx Hy).
    assert (GD : on_grid (f_dom s) x y) by (rewrite D; unfold on_grid, gx, gy; cbn [nth]; lia).
    rewrite (write_in _ _ _ _ _ _ GD). unfold respond.
    assert (EQ : mkArr (f_dom s) (write (f_dom s) 0 (fun p : pt (f_dom s) => - j (px p) (py p)))
               = mkArr (map (fun n => (2 * n)%nat) [n; m]) (extend0 [n; m] (fun x y => - j x y))).
    { rewrite D. cbn [map]. f_equal. fext. fext. rename x0 into c, x1 into b. unfold extend0.
      destruct (Nat.ltb_spec c (gx [n; m])) as [A|A], (Nat.ltb_spec b (gy [n; m])) as [B|B]; cbn [andb];
        unfold write; (destruct (bool_dec _ _) as [K|K]; [unfold px, py; cbn [proj1_sig fst snd]|]); try reflexivity;
        try (rewrite Z by (unfold on_grid; lia); lra).
      exfalso. apply K. apply inside_true. unfold on_grid, gx, gy in *. cbn [nth] in *. lia. }
    rewrite EQ. assert (F : free_disp s (mkArr (map (fun n => (2 * n)%nat) [n; m]) (extend0 [n; m] (fun x y => - j x y))) false = Ret up).
    { rewrite <- U1. unfold free_disp. cbn [a_shape]. rewrite D. change (map (fun n => (2 * n)%nat) [n; m]) with [(2 * n)%nat; (2 * m)%nat].
      rewrite shape_eqb_refl. reflexivity. }
    rewrite F. unfold read, px, py. cbn [proj1_sig fst snd].
    change (a_val up x y = Rsum2 n m (fun x' y' => influence [n; m] (contact_modulus young nu) [lx; ly] (offset x x') (offset y y') * (j x' y' / cell_area n m lx ly))).
    rewrite <- (E2 _ _ G), (W3 x y G).
    cbn [gx gy nth]. rewrite <- Rsum2_scal. apply Rsum2_ext. intros x' y' _ _.
    change (point_area [n; m] [lx; ly]) with (lx * ly / (INR n * INR m)). unfold cell_area in *. rewrite mult_INR in *. field.
    repeat split; try lra; apply not_0_INR; lia.
  Qed.
End Free.
