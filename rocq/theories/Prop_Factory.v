(** * Properties of the construction of systems (C46, C64) *)
From Coq Require Import Reals ZArith Lia Lra List Arith Bool String.
From Verif Require Import Py FFT_Base HalfSpace_Model HalfSpace_Spec HalfSpace_Proofs
  HalfSpace_Results HalfSpace_Results2 HalfSpace_Results3 HalfSpace_Witness Free_Model Free_Spec
  Free_Proofs Free_Results Prop_HalfSpace Prop_Free Systems_Model Systems_Spec Systems_Proofs
  Prop_Systems Tools_Model Tools_Proofs Tools_Spec Prop_Tools Factory_Model.
Import ListNotations.
Local Open Scope R_scope.

(** ** C46 Mismatched substrate and surface are rejected *)

(** The comparison of the two tuples of ints is equality of the grids. *)
Definition ints (g : list nat) : list pyval := map (fun n => VInt (Z.of_nat n)) g.

Lemma ints_same : forall g g', Forall2 same (ints g) (ints g') <-> g = g'.
Proof.
  induction g as [|n g IH]; intros [|m g']; cbn [ints map]; split; intro H; try discriminate;
    try (inversion H; fail); try constructor.
  - inversion H as [|? ? ? ? S F]; subst. f_equal; [|apply IH; exact F].
    inversion S as [|? ? x A B| | |]; subst. inversion A; subst. inversion B as [k E1 E2|]; subst.
    apply eq_IZR in E2. lia.
  - injection H as <- <-. apply (same_num _ _ (IZR (Z.of_nat n))); constructor.
  - injection H as <- <-. apply IH. reflexivity.
Qed.

Theorem C46_comparison : forall g g' t t',
  (t = VTuple (ints g) \/ t = VList (ints g)) -> (t' = VTuple (ints g') \/ t' = VList (ints g')) ->
  (compare_containers t t' = true <-> g = g').
Proof.
  intros g g' t t' T T'. rewrite (C65_containers t t' (ints g) (ints g')); [apply ints_same| |].
  - destruct T; subst; constructor.
  - destruct T'; subst; constructor.
Qed.
Print Assumptions C46_comparison.

(** A system is rejected with [IncompatibleResolutionError] exactly if the
    grids differ. *)
Theorem C46_rejected_iff : forall sb sf,
  (make sb sf = Exc IncompatibleResolutionErr <-> sf_grid sf <> sb_grid sb)
  /\ ((exists y, make sb sf = Ret y) <-> sf_grid sf = sb_grid sb)
  /\ (forall e, make sb sf = Exc e -> e = IncompatibleResolutionErr).
Proof.
  intros sb sf. unfold make. destruct (shape_eqb (sf_grid sf) (sb_grid sb)) eqn:E.
  - apply shape_eqb_spec in E. split; [split; [discriminate|contradiction]|].
    split; [split; [auto|eexists; reflexivity]|discriminate].
  - assert (N : sf_grid sf <> sb_grid sb).
    { intro K. apply shape_eqb_spec in K. congruence. }
    split; [split; auto|]. split; [split; [intros [y K]; discriminate|contradiction]|congruence].
Qed.
Print Assumptions C46_rejected_iff.

(** A fresh system has no result. *)
Theorem C46_fresh : forall sb sf y, make sb sf = Ret y ->
  y_gap y = None /\ y_disp y = None /\ y_force y = None /\ y_energy y = None /\ y_zone y = None.
Proof.
  intros sb sf y. unfold make. destruct (shape_eqb _ _); [|discriminate].
  intro E. injection E as <-. repeat split; reflexivity.
Qed.
Print Assumptions C46_fresh.

(** ** C64 make_system dispatch *)

(** [l] are the sizes of a domain with [dim] directions when [sizes] was
    asked for: the last entry is used for missing directions. *)
Definition sizes_of (dim : nat) (sizes l : list R) : Prop :=
  List.length l = dim /\ forall i, (i < dim)%nat -> nth i l 0 = cell_size sizes i.

Lemma new_on_grid : forall dom a h, new_on dom a = Ret h ->
  h_grid h = a_grid a /\ sizes_of (List.length (a_grid a)) (a_sizes a) (h_sizes h).
Proof.
  intros dom a h H. unfold new_on in H.
  destruct (negb _); [discriminate|].
  destruct (match a_q0 a with Some _ => _ | None => _ end); [discriminate|].
  destruct (extend_sizes _ _) as [l|] eqn:E; [|discriminate]. cbn [bind] in H.
  destruct (compute_steps _ _); [|discriminate]. cbn [bind] in H.
  destruct (Req_bool _ _); [discriminate|].
  destruct (match a_engine a with Some _ => _ | None => _ end); [discriminate|].
  injection H as <-. cbn [h_grid h_sizes]. split; [reflexivity|].
  unfold extend_sizes in E. destruct (a_sizes a) as [|s0 ss] eqn:S.
  - destruct (List.length (a_grid a)) eqn:L; [|discriminate]. injection E as <-.
    split; [reflexivity|]. intros; lia.
  - rewrite <- S in *. injection E as <-. split.
    + rewrite map_length, seq_length. reflexivity.
    + intros i Hi. unfold cell_size.
      rewrite (nth_indep _ 0 (nth (Nat.min 0 (List.length (a_sizes a) - 1)) (a_sizes a) 0))
        by (rewrite map_length, seq_length; exact Hi).
      rewrite (map_nth (fun i => nth (Nat.min i (List.length (a_sizes a) - 1)) (a_sizes a) 0)).
      rewrite seq_nth by exact Hi. reflexivity.
Qed.

Lemma periodic_grid : forall a s, construct a = Ret s ->
  sb_grid (periodic s) = a_grid a /\ sizes_of (List.length (a_grid a)) (a_sizes a) (sb_sizes (periodic s)).
Proof.
  intros a s H. destruct (construct_inv a s H) as [N _]. exact (new_on_grid _ _ _ N).
Qed.
Lemma free_grid : forall a s, free_construct a = Ret s ->
  sb_grid (free s) = fa_grid a /\ sizes_of (List.length (fa_grid a)) (fa_sizes a) (sb_sizes (free s)).
Proof.
  intros a s H. unfold free_construct in H.
  destruct (new_on _ (base_args a)) as [h|e] eqn:N; [|discriminate]. cbn [bind] in H.
  destruct (Nat.eqb _ 1); [discriminate|]. injection H as <-. exact (new_on_grid _ _ _ N).
Qed.

(** Keywords the two half-spaces accept, with their defaults. *)
Definition periodic_args (grid : list nat) (sizes : list R) (k : kwargs) (a : args) : Prop :=
  kw_unknown k = false /\ kw_check k = None /\ kw_young k = Some (a_young a)
  /\ a_grid a = grid /\ a_sizes a = sizes
  /\ (forall q, kw_q0 k = Some q -> a_q0 a = q) /\ (kw_q0 k = None -> a_q0 a = None)
  /\ (forall t, kw_thick k = Some t -> a_thick a = t) /\ (kw_thick k = None -> a_thick a = None)
  /\ (forall p, kw_poisson k = Some p -> a_poisson a = p) /\ (kw_poisson k = None -> a_poisson a = 0)
  /\ (forall e, kw_engine k = Some e -> a_engine a = e) /\ (kw_engine k = None -> a_engine a = None).
Definition free_args (grid : list nat) (sizes : list R) (k : kwargs) (a : fargs) : Prop :=
  kw_unknown k = false /\ kw_q0 k = None /\ kw_thick k = None /\ kw_poisson k = None
  /\ kw_young k = Some (fa_young a) /\ fa_grid a = grid /\ fa_sizes a = sizes
  /\ (forall c, kw_check k = Some c -> fa_check a = c) /\ (kw_check k = None -> fa_check a = false)
  /\ (forall e, kw_engine k = Some e -> fa_engine a = e) /\ (kw_engine k = None -> fa_engine a = None).

Lemma call_periodic_iff : forall grid sizes k r,
  call_periodic grid sizes k = r <->
  (exists a, periodic_args grid sizes k a /\
     r = match construct a with Ret s => Ret (periodic s) | Exc e => Exc e end)
  \/ (~ (exists a, periodic_args grid sizes k a) /\ r = Exc TypeErr).
Proof.
  intros grid sizes k r.
  assert (UNI : forall a, periodic_args grid sizes k a ->
    call_periodic grid sizes k = match construct a with Ret s => Ret (periodic s) | Exc e => Exc e end).
  { intros a (A1 & A2 & A3 & A4 & A5 & B1 & B2 & C1 & C2 & D1 & D2 & E1 & E2).
    unfold call_periodic. rewrite A1, A2, A3. cbn [given orb].
    replace (mkArgs grid (a_young a) sizes (default None (kw_q0 k)) (default None (kw_thick k))
               (default 0 (kw_poisson k)) (default None (kw_engine k))) with a.
    - unfold bind. reflexivity.
    - destruct a as [g yo sz q t p e].
      cbn [a_grid a_young a_sizes a_q0 a_thick a_poisson a_engine] in *. subst g sz.
      f_equal; unfold default.
      + destruct (kw_q0 k); auto.
      + destruct (kw_thick k); auto.
      + destruct (kw_poisson k); auto.
      + destruct (kw_engine k); auto. }
  assert (DEC : (exists a, periodic_args grid sizes k a) \/
     (~ (exists a, periodic_args grid sizes k a) /\ call_periodic grid sizes k = Exc TypeErr)).
  { unfold call_periodic. destruct (kw_unknown k) eqn:U.
    { right. split; [|reflexivity]. intros (a & A & _). congruence. }
    destruct (kw_check k) eqn:Ck.
    { right. split; [|reflexivity]. intros (a & _ & A & _). congruence. }
    destruct (kw_young k) as [y|] eqn:Y.
    2:{ right. split; [|reflexivity]. intros (a & _ & _ & A & _). congruence. }
    left. exists (mkArgs grid y sizes (default None (kw_q0 k)) (default None (kw_thick k))
                    (default 0 (kw_poisson k)) (default None (kw_engine k))).
    unfold periodic_args. cbn [a_grid a_young a_sizes a_q0 a_thick a_poisson a_engine].
    repeat split; try assumption; intros; unfold default;
      repeat match goal with H : _ = _ |- _ => rewrite H end; reflexivity. }
  split.
  - intros <-. destruct DEC as [[a A]|[N E]].
    + left. exists a. split; [exact A|]. apply UNI. exact A.
    + right. auto.
  - intros [(a & A & ->)|[N ->]].
    + apply UNI. exact A.
    + destruct DEC as [D|[_ E]]; [contradiction|exact E].
Qed.

Lemma call_free_iff : forall grid sizes k r,
  call_free grid sizes k = r <->
  (exists a, free_args grid sizes k a /\
     r = match free_construct a with Ret s => Ret (free s) | Exc e => Exc e end)
  \/ (~ (exists a, free_args grid sizes k a) /\ r = Exc TypeErr).
Proof.
  intros grid sizes k r.
  assert (UNI : forall a, free_args grid sizes k a ->
    call_free grid sizes k = match free_construct a with Ret s => Ret (free s) | Exc e => Exc e end).
  { intros a (A1 & A2 & A3 & A4 & A5 & A6 & A7 & D1 & D2 & E1 & E2).
    unfold call_free. rewrite A1, A2, A3, A4, A5. cbn [given orb].
    replace (mkFargs grid (fa_young a) sizes (default None (kw_engine k)) (default false (kw_check k)))
      with a.
    - unfold bind. reflexivity.
    - destruct a as [g yo sz e c].
      cbn [fa_grid fa_young fa_sizes fa_engine fa_check] in *. subst g sz.
      f_equal; unfold default.
      + destruct (kw_engine k); auto.
      + destruct (kw_check k); auto. }
  assert (DEC : (exists a, free_args grid sizes k a) \/
     (~ (exists a, free_args grid sizes k a) /\ call_free grid sizes k = Exc TypeErr)).
  { unfold call_free. destruct (kw_unknown k) eqn:U.
    { right. split; [|reflexivity]. intros (a & A & _). congruence. }
    destruct (kw_q0 k) eqn:Cq.
    { right. split; [|reflexivity]. intros (a & _ & A & _). congruence. }
    destruct (kw_thick k) eqn:Ct.
    { right. split; [|reflexivity]. intros (a & _ & _ & A & _). congruence. }
    destruct (kw_poisson k) eqn:Cp.
    { right. split; [|reflexivity]. intros (a & _ & _ & _ & A & _). congruence. }
    cbn [given orb]. destruct (kw_young k) as [y|] eqn:Y.
    2:{ right. split; [|reflexivity]. intros (a & _ & _ & _ & _ & A & _). congruence. }
    left. exists (mkFargs grid y sizes (default None (kw_engine k)) (default false (kw_check k))).
    unfold free_args. cbn [fa_grid fa_young fa_sizes fa_engine fa_check].
    repeat split; try assumption; intros; unfold default;
      repeat match goal with H : _ = _ |- _ => rewrite H end; reflexivity. }
  split.
  - intros <-. destruct DEC as [[a A]|[N E]].
    + left. exists a. split; [exact A|]. apply UNI. exact A.
    + right. auto.
  - intros [(a & A & ->)|[N ->]].
    + apply UNI. exact A.
    + destruct DEC as [D|[_ E]]; [contradiction|exact E].
Qed.

(** The sizes in force: those asked for, otherwise those of the topography. *)
Definition sizes_used (asked own : option (list R)) (l : list R) : Prop :=
  asked = Some l \/ (asked = None /\ own = Some l).

(** The kind of half-space wanted: a name wins over the periodicity of the
    topography. *)
Inductive wanted : substrate_arg -> bool -> string -> Prop :=
| wanted_name : forall s p, wanted (SubName s) p s
| wanted_periodic : wanted SubNone true "periodic"
| wanted_free : wanted SubNone false "free".

Definition class_of (plastic : bool) := if plastic then PlasticNonSmooth else NonSmooth.
Definition factory (plastic : bool) := if plastic then make_plastic_system else make_system.

Lemma factory_build : forall plastic, factory plastic = build (class_of plastic).
Proof. intros [|]; reflexivity. Qed.

Lemma make_grid : forall sb sf, sf_grid sf = sb_grid sb -> make sb sf = Ret fresh.
Proof. intros sb sf E. unfold make. rewrite E, shape_eqb_refl. reflexivity. Qed.

Lemma wanted_arg : forall sb p name (k : substrate_arg -> res (substrate * topography)),
  wanted sb p name ->
  bind (match sb with
        | SubNone => Ret (SubName (if p then "periodic" else "free"))
        | _ => Ret sb
        end) k = k (SubName name).
Proof. intros sb p name k W. destruct W; reflexivity. Qed.

(** Periodic half-space wanted: the system consists of the half-space with the
    topography's grid, the sizes in force and the keywords given, and of the
    unchanged topography; if the keywords do not fit, or the half-space cannot
    be constructed, the exception is passed on. *)
Theorem C64_periodic : forall plastic t sb asked k sizes,
  wanted sb (tp_periodic t) "periodic" -> sizes_used asked (tp_sizes t) sizes ->
  (forall a, periodic_args (sf_grid (tp_surface t)) sizes k a ->
     (forall s, construct a = Ret s ->
        exists y, factory plastic (STopo t) sb asked k
                  = Ret (mkSystem (class_of plastic) (periodic s) t y))
     /\ (forall e, construct a = Exc e -> factory plastic (STopo t) sb asked k = Exc e))
  /\ (~ (exists a, periodic_args (sf_grid (tp_surface t)) sizes k a) ->
      factory plastic (STopo t) sb asked k = Exc TypeErr).
Proof.
  intros plastic t sb asked k sizes W S. rewrite factory_build. unfold build, make_system_args.
  cbn [open_arg bind].
  assert (SZ : match asked with
     | Some l => Ret l
     | None => match tp_sizes t with Some l => Ret l | None => Exc ValueErr end end = Ret sizes).
  { destruct S as [->|[-> ->]]; reflexivity. }
  rewrite SZ. cbn [bind]. rewrite (wanted_arg sb _ _ _ W). cbn [String.eqb Ascii.eqb Bool.eqb].
  change (String.eqb "periodic" "periodic") with true. cbv iota.
  split.
  - intros a A. assert (C : call_periodic (sf_grid (tp_surface t)) sizes k
      = match construct a with Ret s => Ret (periodic s) | Exc e => Exc e end).
    { apply call_periodic_iff. left. exists a. auto. }
    rewrite C. split.
    + intros s E. rewrite E. cbn [bind fst snd]. rewrite make_grid.
      * cbn [bind]. eexists. reflexivity.
      * destruct (periodic_grid a s E) as [G _]. rewrite G. symmetry. apply A.
    + intros e E. rewrite E. reflexivity.
  - intro N. assert (C : call_periodic (sf_grid (tp_surface t)) sizes k = Exc TypeErr).
    { apply call_periodic_iff. right. auto. }
    rewrite C. reflexivity.
Qed.
Print Assumptions C64_periodic.

Theorem C64_free : forall plastic t sb asked k sizes,
  wanted sb (tp_periodic t) "free" -> sizes_used asked (tp_sizes t) sizes ->
  (forall a, free_args (sf_grid (tp_surface t)) sizes k a ->
     (forall s, free_construct a = Ret s ->
        exists y, factory plastic (STopo t) sb asked k
                  = Ret (mkSystem (class_of plastic) (free s) t y))
     /\ (forall e, free_construct a = Exc e -> factory plastic (STopo t) sb asked k = Exc e))
  /\ (~ (exists a, free_args (sf_grid (tp_surface t)) sizes k a) ->
      factory plastic (STopo t) sb asked k = Exc TypeErr).
Proof.
  intros plastic t sb asked k sizes W S. rewrite factory_build. unfold build, make_system_args.
  cbn [open_arg bind].
  assert (SZ : match asked with
     | Some l => Ret l
     | None => match tp_sizes t with Some l => Ret l | None => Exc ValueErr end end = Ret sizes).
  { destruct S as [->|[-> ->]]; reflexivity. }
  rewrite SZ. cbn [bind]. rewrite (wanted_arg sb _ _ _ W).
  change (String.eqb "free" "periodic") with false. change (String.eqb "free" "free") with true. cbv iota.
  split.
  - intros a A. assert (C : call_free (sf_grid (tp_surface t)) sizes k
      = match free_construct a with Ret s => Ret (free s) | Exc e => Exc e end).
    { apply call_free_iff. left. exists a. auto. }
    rewrite C. split.
    + intros s E. rewrite E. cbn [bind fst snd]. rewrite make_grid.
      * cbn [bind]. eexists. reflexivity.
      * destruct (free_grid a s E) as [G _]. rewrite G. symmetry. apply A.
    + intros e E. rewrite E. reflexivity.
  - intro N. assert (C : call_free (sf_grid (tp_surface t)) sizes k = Exc TypeErr).
    { apply call_free_iff. right. auto. }
    rewrite C. reflexivity.
Qed.
Print Assumptions C64_free.

(** A ready-made substrate is used as it is, whatever the keywords; only the
    grid is compared. *)
Theorem C64_instance : forall plastic t x asked k sizes, sizes_used asked (tp_sizes t) sizes ->
  (sf_grid (tp_surface t) = sb_grid x ->
     exists y, factory plastic (STopo t) (SubInstance x) asked k
               = Ret (mkSystem (class_of plastic) x t y))
  /\ (sf_grid (tp_surface t) <> sb_grid x ->
     factory plastic (STopo t) (SubInstance x) asked k = Exc IncompatibleResolutionErr).
Proof.
  intros plastic t x asked k sizes S. rewrite factory_build. unfold build, make_system_args.
  cbn [open_arg bind].
  assert (SZ : match asked with
     | Some l => Ret l
     | None => match tp_sizes t with Some l => Ret l | None => Exc ValueErr end end = Ret sizes).
  { destruct S as [->|[-> ->]]; reflexivity. }
  rewrite SZ. cbn [bind fst snd]. split.
  - intro E. rewrite make_grid by exact E. eexists. reflexivity.
  - intro N. destruct (C46_rejected_iff x (tp_surface t)) as [[_ R] _]. rewrite (R N). reflexivity.
Qed.
Print Assumptions C64_instance.

(** Whatever the arguments, a system that is returned has one grid, and a
    half-space made by the factory has the sizes in force. *)
Theorem C64_matching : forall plastic sf sb asked k sys,
  factory plastic sf sb asked k = Ret sys ->
  sf_grid (tp_surface (sy_topography sys)) = sb_grid (sy_substrate sys)
  /\ sy_class sys = class_of plastic
  /\ (forall t, sf = STopo t -> sy_topography sys = t)
  /\ ((exists x, sb = SubInstance x /\ sy_substrate sys = x)
      \/ exists own sizes, sizes_used asked own sizes
           /\ (forall t, sf = STopo t -> own = tp_sizes t)
           /\ (forall r, sf = SReader r -> own = rd_sizes r)
           /\ sizes_of (List.length (sb_grid (sy_substrate sys))) sizes (sb_sizes (sy_substrate sys))).
Proof.
  intros plastic sf sb asked k sys. rewrite factory_build. unfold build. intro H.
  apply bind_Ret in H. destruct H as ([x t] & H & K). cbn [fst snd] in K.
  apply bind_Ret in K. destruct K as (y & K & Q). injection Q as <-.
  cbn [sy_topography sy_substrate sy_class].
  split. { apply (proj1 (proj2 (C46_rejected_iff x (tp_surface t)))). exists y. exact K. }
  split; [reflexivity|].
  unfold make_system_args in H. apply bind_Ret in H. destruct H as (o & O & H). cbv zeta in H.
  apply bind_Ret in H. destruct H as (sizes & SZ & H).
  apply bind_Ret in H. destruct H as (sb' & SB & H).
  apply bind_Ret in H. destruct H as (x' & X & H).
  destruct x' as [x'|]; [|discriminate].
  assert (XX : x' = x).
  { destruct o; [congruence|]. apply bind_Ret in H. destruct H as (t' & _ & H). congruence. }
  subst x'.
  split. { intros t0 ->. cbn [open_arg] in O. injection O as <-. congruence. }
  assert (SU : sizes_used asked (match o with OTopo t => tp_sizes t | OReader r => rd_sizes r end) sizes).
  { destruct asked as [l|]; [left; congruence|right]. split; [reflexivity|].
    destruct o; (destruct (tp_sizes t0) || destruct (rd_sizes r)); congruence. }
  destruct sb' as [|s|x0].
  - discriminate.
  - right. exists (match o with OTopo t => tp_sizes t | OReader r => rd_sizes r end), sizes.
    split; [exact SU|].
    split. { intros t0 ->. cbn [open_arg] in O. injection O as <-. reflexivity. }
    split. { intros r ->. cbn [open_arg] in O. injection O as <-. reflexivity. }
    set (grid := match o with OTopo t => sf_grid (tp_surface t) | OReader r => rd_grid r end) in *.
    destruct (String.eqb s "periodic").
    + apply bind_Ret in X. destruct X as (x0 & X & E). injection E as <-.
      apply call_periodic_iff in X. destruct X as [(a & A & E)|[_ E]]; [|discriminate].
      destruct (construct a) as [u|e] eqn:C; [|discriminate]. injection E as ->.
      destruct (periodic_grid a u C) as [G1 G2]. rewrite G1.
      destruct A as (_ & _ & _ & _ & <- & _). exact G2.
    + destruct (String.eqb s "free"); [|discriminate].
      apply bind_Ret in X. destruct X as (x0 & X & E). injection E as <-.
      apply call_free_iff in X. destruct X as [(a & A & E)|[_ E]]; [|discriminate].
      destruct (free_construct a) as [u|e] eqn:C; [|discriminate]. injection E as ->.
      destruct (free_grid a u C) as [G1 G2]. rewrite G1.
      destruct A as (_ & _ & _ & _ & _ & _ & <- & _). exact G2.
  - left. exists x0. injection X as ->. split; [|reflexivity].
    destruct sb as [|s|x1]; [|congruence|congruence].
    destruct o; [discriminate|]. destruct (rd_periodic r); discriminate.
Qed.
Print Assumptions C64_matching.

(** Rejected arguments.  Missing sizes are an error even if a ready-made
    substrate is given. *)
Theorem C64_raises :
  (forall plastic t sb k, tp_sizes t = None -> factory plastic (STopo t) sb None k = Exc ValueErr)
  /\ (forall plastic t s asked k sizes, sizes_used asked (tp_sizes t) sizes ->
        s <> "periodic"%string -> s <> "free"%string ->
        factory plastic (STopo t) (SubName s) asked k = Exc AttributeErr)
  /\ (forall plastic r asked k sizes, sizes_used asked (rd_sizes r) sizes -> rd_periodic r = None ->
        factory plastic (SReader r) SubNone asked k = Exc AttributeErr)
  /\ (forall plastic e sb asked k, factory plastic (SFile (Exc e)) sb asked k = Exc e)
  /\ (forall plastic sb asked k, factory plastic SOther sb asked k = Exc AttributeErr)
  /\ (forall t n sb asked k, (0 < n)%nat ->
        make_contact_system t n sb asked k = Exc TypeErr
        /\ make_plastic_contact_system t n sb asked k = Exc TypeErr).
Proof.
  repeat split.
  - intros plastic t sb k N. rewrite factory_build. unfold build, make_system_args.
    cbn [open_arg bind]. rewrite N. reflexivity.
  - intros plastic t s asked k sizes S N1 N2. rewrite factory_build. unfold build, make_system_args.
    cbn [open_arg bind].
    assert (SZ : match asked with
       | Some l => Ret l
       | None => match tp_sizes t with Some l => Ret l | None => Exc ValueErr end end = Ret sizes).
    { destruct S as [->|[-> ->]]; reflexivity. }
    rewrite SZ. cbn [bind].
    destruct (String.eqb_spec s "periodic"); [contradiction|].
    destruct (String.eqb_spec s "free"); [contradiction|]. reflexivity.
  - intros plastic r asked k sizes S N. rewrite factory_build. unfold build, make_system_args.
    cbn [open_arg bind].
    assert (SZ : match asked with
       | Some l => Ret l
       | None => match rd_sizes r with Some l => Ret l | None => Exc ValueErr end end = Ret sizes).
    { destruct S as [->|[-> ->]]; reflexivity. }
    rewrite SZ, N. reflexivity.
  - intros plastic e sb asked k. rewrite factory_build. reflexivity.
  - intros plastic sb asked k. rewrite factory_build. reflexivity.
  - unfold make_contact_system. destruct (Nat.eqb_spec n 0); [lia|reflexivity].
  - unfold make_plastic_contact_system. destruct (Nat.eqb_spec n 0); [lia|reflexivity].
Qed.
Print Assumptions C64_raises.

(** The contact functions are the two factories with the topography as surface. *)
Theorem C64_contact_functions : forall t sb asked k,
  make_contact_system t 0 sb asked k = factory false (STopo t) sb asked k
  /\ make_plastic_contact_system t 0 sb asked k = factory true (STopo t) sb asked k
  /\ (forall sys, make_contact_system t 0 sb asked k = Ret sys -> sy_class sys = NonSmooth)
  /\ (forall sys, make_plastic_contact_system t 0 sb asked k = Ret sys -> sy_class sys = PlasticNonSmooth).
Proof.
  intros t sb asked k.
  assert (B : forall c sf sys, build c sf sb asked k = Ret sys -> sy_class sys = c).
  { intros c sf sys H. unfold build in H. destruct (make_system_args _ _ _ _) as [p|e]; [|discriminate]. cbn [bind] in H.
    destruct (make _ _) as [y|e]; [|discriminate]. cbn [bind] in H. injection H as <-. reflexivity. }
  repeat split; intros sys H; eapply B; exact H.
Qed.
Print Assumptions C64_contact_functions.

(** A file is treated like the reader it opens to, and a reader is asked for
    the whole grid with the sizes in force. *)
Theorem C64_reader : forall plastic r x asked k sizes t,
  sizes_used asked (rd_sizes r) sizes ->
  rd_topography r (map (fun _ => 0%nat) (sb_grid x)) (sb_topo x) sizes = Ret t ->
  factory plastic (SFile (Ret r)) (SubInstance x) asked k
    = factory plastic (SReader r) (SubInstance x) asked k
  /\ factory plastic (SReader r) (SubInstance x) asked k
     = factory plastic (STopo t) (SubInstance x) (Some sizes) k.
Proof.
  intros plastic r x asked k sizes t S T. rewrite factory_build. split; [reflexivity|].
  unfold build, make_system_args. cbn [open_arg bind].
  assert (SZ : match asked with
     | Some l => Ret l
     | None => match rd_sizes r with Some l => Ret l | None => Exc ValueErr end end = Ret sizes).
  { destruct S as [->|[-> ->]]; reflexivity. }
  rewrite SZ. cbn [bind]. rewrite T. reflexivity.
Qed.
Print Assumptions C64_reader.

(** A reader, or a file, without an instance of a substrate: the kind of
    half-space is the one named, otherwise the periodicity of the file decides.
    It is constructed on the grid of the file with the sizes in force, and the
    system is the one this half-space gives as an instance. *)
Theorem C64_reader_kind : forall plastic r sb asked k sizes, sizes_used asked (rd_sizes r) sizes ->
  factory plastic (SFile (Ret r)) sb asked k = factory plastic (SReader r) sb asked k
  /\ (sb = SubName "periodic" \/ (sb = SubNone /\ rd_periodic r = Some true) ->
      forall a s, periodic_args (rd_grid r) sizes k a -> construct a = Ret s ->
      factory plastic (SReader r) sb asked k
        = factory plastic (SReader r) (SubInstance (periodic s)) asked k)
  /\ (sb = SubName "free" \/ (sb = SubNone /\ rd_periodic r = Some false) ->
      forall a s, free_args (rd_grid r) sizes k a -> free_construct a = Ret s ->
      factory plastic (SReader r) sb asked k
        = factory plastic (SReader r) (SubInstance (free s)) asked k)
  /\ (sb = SubNone -> rd_periodic r = None ->
      factory plastic (SReader r) sb asked k = Exc AttributeErr).
Proof.
  intros plastic r sb asked k sizes S. rewrite factory_build. split; [reflexivity|].
  assert (SZ : match asked with
     | Some l => Ret l
     | None => match rd_sizes r with Some l => Ret l | None => Exc ValueErr end end = Ret sizes).
  { destruct S as [->|[-> ->]]; reflexivity. }
  unfold build, make_system_args. cbn [open_arg bind]. rewrite SZ. cbn [bind].
  split; [|split].
  - intros W a s A Q.
    assert (CP : call_periodic (rd_grid r) sizes k = Ret (periodic s)).
    { apply call_periodic_iff. left. exists a. split; [exact A|]. rewrite Q. reflexivity. }
    destruct W as [->|[-> ->]]; cbn [bind]; rewrite String.eqb_refl, CP; reflexivity.
  - intros W a s A Q.
    assert (CP : call_free (rd_grid r) sizes k = Ret (free s)).
    { apply call_free_iff. left. exists a. split; [exact A|]. rewrite Q. reflexivity. }
    destruct W as [->|[-> ->]]; cbn [bind]; (replace (String.eqb "free" "periodic") with false by reflexivity);
      rewrite String.eqb_refl, CP; reflexivity.
  - intros -> ->. reflexivity.
Qed.
Print Assumptions C64_reader_kind.

(** ** Witnesses *)
Definition topoA := mkTopo hsurf (Some [2; 5]) true.
Definition topoB := mkTopo fsurf (Some [3; 5]) false.
Definition kwA := mkKw (Some 2) None None (Some (1/4)) None None false.
Definition kwB := mkKw (Some 2) None None None (Some true) None false.

Lemma kwA_args : periodic_args (sf_grid (tp_surface topoA)) [2; 5] kwA hsA.
Proof. unfold periodic_args; cbn; repeat split; intros; congruence. Qed.
Lemma kwB_args : free_args (sf_grid (tp_surface topoB)) [3; 5] kwB fhA.
Proof. unfold free_args; cbn; repeat split; intros; congruence. Qed.

(** The sizes of a topography given as an instance are not checked against
    the sizes asked for: this system has a substrate of size 4 x 5 and a
    topography of size 2 x 5. *)
Theorem C64_sizes_refuted : exists t asked k sys,
  make_system (STopo t) SubNone asked k = Ret sys
  /\ sy_topography sys = t
  /\ exists own, tp_sizes t = Some own /\ sb_sizes (sy_substrate sys) <> own.
Proof.
  pose (a := mkArgs [4; 3]%nat 2 [4; 5] None None (1/4) None).
  destruct (construct_2d_ok a 4 3) as (s & C); try reflexivity; try lia; try discriminate; auto.
  { cbn. lra. }
  assert (A : periodic_args (sf_grid (tp_surface topoA)) [4; 5] kwA a)
    by (unfold periodic_args; cbn; repeat split; intros; congruence).
  destruct (C64_periodic false topoA SubNone (Some [4; 5]) kwA [4; 5] wanted_periodic (or_introl eq_refl))
    as [P _]. destruct (P a A) as [P1 _]. destruct (P1 s C) as (y & E).
  exists topoA, (Some [4; 5]), kwA. eexists. split; [exact E|]. split; [reflexivity|].
  exists [2; 5]. split; [reflexivity|]. cbn [sy_substrate].
  destruct (periodic_grid a s C) as [_ [_ G]]. intro K.
  specialize (G 0%nat). cbn [a_grid a List.length] in G. specialize (G ltac:(lia)).
  rewrite K in G. unfold cell_size in G. cbn in G. lra.
Qed.
Print Assumptions C64_sizes_refuted.

Example C64_nonvacuous :
  (exists s, periodic_args (sf_grid (tp_surface topoA)) [2; 5] kwA hsA /\ construct hsA = Ret s
     /\ wanted SubNone (tp_periodic topoA) "periodic" /\ sizes_used None (tp_sizes topoA) [2; 5])
  /\ (exists s, free_args (sf_grid (tp_surface topoB)) [3; 5] kwB fhA /\ free_construct fhA = Ret s
     /\ wanted SubNone (tp_periodic topoB) "free" /\ sizes_used None (tp_sizes topoB) [3; 5])
  /\ ~ (exists a, periodic_args (sf_grid (tp_surface topoA)) [2; 5] kwB a)
  /\ (exists sys, make_system (STopo topoA) SubNone None kwA = Ret sys).
Proof.
  assert (W : sizes_used None (tp_sizes topoA) [2; 5]) by (right; split; reflexivity).
  destruct hsA_ok as (s & C).
  split; [|split; [|split]].
  - exists s. split; [exact kwA_args|]. split; [exact C|]. split; [constructor|exact W].
  - destruct (proj1 fh_ok) as (f & F). exists f. split; [exact kwB_args|]. split; [exact F|].
    split; [constructor|right; split; reflexivity].
  - intros (a & _ & A & _). discriminate.
  - destruct (C64_periodic false topoA SubNone None kwA [2; 5] wanted_periodic W) as [P _].
    destruct (P hsA kwA_args) as [P1 _]. destruct (P1 s C) as (y & E). eexists. exact E.
Qed.

Example C46_nonvacuous : (exists sb, sf_grid hsurf = sb_grid sb) /\ (exists sb, sf_grid hsurf <> sb_grid sb).
Proof.
  destruct hsA_ok as (s & C). destruct (periodic_grid hsA s C) as [G _].
  destruct (proj1 fh_ok) as (f & F). destruct (free_grid fhA f F) as [G' _].
  split; [exists (periodic s); rewrite G; reflexivity|exists (free f); rewrite G'; discriminate].
Qed.

Definition readA := mkReader (sf_grid (tp_surface topoA)) (Some [2; 5]) (Some true) (fun _ _ _ => Ret topoA).
Definition readB := mkReader (sf_grid (tp_surface topoB)) (Some [3; 5]) (Some false) (fun _ _ _ => Ret topoB).
Example C64_reader_nonvacuous :
  (exists s, sizes_used None (rd_sizes readA) [2; 5] /\ periodic_args (rd_grid readA) [2; 5] kwA hsA
     /\ construct hsA = Ret s /\ exists sys, make_system (SReader readA) SubNone None kwA = Ret sys
     /\ sy_substrate sys = periodic s)
  /\ (exists s, sizes_used None (rd_sizes readB) [3; 5] /\ free_args (rd_grid readB) [3; 5] kwB fhA
     /\ free_construct fhA = Ret s /\ exists sys, make_system (SReader readB) SubNone None kwB = Ret sys
     /\ sy_substrate sys = free s).
Proof.
  assert (W : sizes_used None (rd_sizes readA) [2; 5]) by (right; split; reflexivity).
  assert (W' : sizes_used None (rd_sizes readB) [3; 5]) by (right; split; reflexivity).
  destruct hsA_ok as (s & C). destruct (proj1 fh_ok) as (f & F). split.
  - exists s. split; [exact W|]. split; [exact kwA_args|]. split; [exact C|].
    destruct (C64_reader_kind false readA SubNone None kwA [2; 5] W) as (_ & K & _).
    unfold factory in K. rewrite (K (or_intror (conj eq_refl eq_refl)) hsA s kwA_args C).
    unfold make_system, build, make_system_args. cbn [open_arg bind readA rd_sizes rd_topography fst snd].
    destruct (periodic_grid hsA s C) as [G _]. rewrite make_grid by (rewrite G; reflexivity).
    cbn [bind]. eexists. split; reflexivity.
  - exists f. split; [exact W'|]. split; [exact kwB_args|]. split; [exact F|].
    destruct (C64_reader_kind false readB SubNone None kwB [3; 5] W') as (_ & _ & K & _).
    unfold factory in K. rewrite (K (or_intror (conj eq_refl eq_refl)) fhA f kwB_args F).
    unfold make_system, build, make_system_args. cbn [open_arg bind readB rd_sizes rd_topography fst snd].
    destruct (free_grid fhA f F) as [G _]. rewrite make_grid by (rewrite G; reflexivity).
    cbn [bind]. eexists. split; reflexivity.
Qed.
