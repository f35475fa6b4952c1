(** * C93 The contact problem on every periodic substrate of the package *)
From Coq Require Import Reals Lia Lra List Arith Bool String.
From Coquelicot Require Import Complex.
From Verif Require Import Py FFT_Base HalfSpace_Spec HalfSpace_Model HalfSpace_Proofs HalfSpace_Results HalfSpace_Results2 HalfSpace_Witness
  Systems_Model Systems_Spec Systems_Proofs Pipeline_Model Pipeline_Spec
  Contact_Spec Contact_Model Contact_Proofs Contact_Results Contact_Results2 Contact_Results3 Contact_Load Prop_Pipeline Prop_Contact
  Signorini_Spec Signorini_Base.
From Verif Require Import Signorini_Periodic Prop_Signorini.
From Verif Require Import Substrate_Contact Substrate_Contact_Spec.
From Verif Require Prop_HalfSpace CCG_Model CCG_Real CCG_Spec CCG_Proofs CCG_Results2.
From Coq Require Import List.
Import ListNotations.
Local Open Scope R_scope.

Section Substrate.
  Variables (a : args) (s : sub).
  Hypothesis H : construct a = Ret s.
  Hypothesis PA : pos_args a.
  Local Notation g := (a_grid a).
  Local Notation n := (gx (a_grid a)).
  Local Notation m := (gy (a_grid a)).
  Lemma area_pos : 0 < area_per_pt (s_hs s).
  Proof. destruct (construct_inv a s H) as [Hn _]. apply (HalfSpace_Proofs.area_pos a); assumption. Qed.
  Definition wave_compliance : nat -> nat -> R := fun k l => / area_per_pt (s_hs s) * s_gf s k l.
  Lemma wave_pos : a_q0 a <> Some 0 -> forall k l, (k < n)%nat -> (l < m)%nat -> 0 < wave_compliance k l.
  Proof.
    intros Q k l K L. pose proof area_pos as A. apply Rmult_lt_0_compat; [apply Rinv_0_lt_compat; exact A|].
    rewrite <- (nx_gx a s H) in K. rewrite <- (ny_gy a s H) in L.
    rewrite (gf_val a s H PA k l K L). pose proof (sigma_pos a s H PA k l K L) as P. unfold zeroed in *.
    assert (Z : match h_q0 (s_hs s) with Some q => Req_bool q 0 | None => false end = false).
    { destruct (construct_inv a s H) as [Hn _]. destruct (zero_thick_q0 _ _ Hn) as [E _]. rewrite E.
      destruct (a_q0 a) as [q|]; [|reflexivity]. destruct (Req_bool_spec q 0) as [->|_]; [exfalso; auto|reflexivity]. }
    rewrite Z in *. rewrite andb_false_r in *. apply Rdiv_lt_0_compat; [lra|auto].
  Qed.
  Lemma wave_Herm : Herm n m (fun k l => RtoC (wave_compliance k l)).
  Proof.
    pose proof (GF_Herm a s H) as HH. rewrite (nx_gx a s H), (ny_gy a s H) in HH. intros k l K L. specialize (HH k l K L).
    unfold GF in HH. rewrite Cconj_RtoC in *. apply RtoC_inj in HH. unfold wave_compliance. rewrite HH. reflexivity.
  Qed.
  Local Notation resp := (response n m wave_compliance).
  Local Notation st := (state n m wave_compliance).
  Lemma disp_comply : forall F, exists U, evaluate_disp s (mkArr g (fun x y => - F x y)) = Ret U
    /\ forall x y, on_grid g x y -> a_val U x y = comply n m wave_compliance F x y.
  Proof.
    intros F. destruct (disp_multiplier a s H) as (P1 & P2 & HG & _ & E).
    destruct (E (mkArr g (fun x y => - F x y)) eq_refl) as (U & EU & _ & V). exists U. split; [exact EU|].
    intros x y [Hx Hy]. rewrite (V x y (conj Hx Hy)). cbn [a_val]. pose proof area_pos as A.
    rewrite (mult_ext n m (GF s) (fun x y => - F x y) (fun x y => -1 * F x y)) by (intros; ring).
    rewrite mult_scal_r by assumption. unfold comply.
    transitivity (/ area_per_pt (s_hs s) * mult n m (GF s) F x y); [field; lra|].
    assert (HC : Herm n m (fun _ _ => RtoC (/ area_per_pt (s_hs s)))).
    { intros k l _ _. rewrite Cconj_RtoC. reflexivity. }
    rewrite (mult_ext_G n m (fun k l => RtoC (wave_compliance k l)) (fun k l => RtoC (/ area_per_pt (s_hs s)) * GF s k l)%C).
    2:{ intros. unfold wave_compliance, GF. rewrite RtoC_mult. reflexivity. }
    rewrite <- (mult_comp n m P1 P2) by assumption.
    symmetry. revert x y Hx Hy. apply (fft2_inj n m P1 P2). intros k l K L.
    rewrite (fft2_mult n m P1 P2) by assumption.
    transitivity (fft2 n m (fun x y => / area_per_pt (s_hs s) * mult n m (GF s) F x y) k l); [|reflexivity].
    symmetry. apply fft2_scal.
  Qed.
  Lemma response_iff : forall F u, elastic_response s g F u <-> resp F u.
  Proof.
    intros F u. destruct (disp_comply F) as (U & EU & V). split.
    - intros (U' & EU' & V') x y Hx Hy. rewrite EU in EU'. injection EU' as <-. rewrite V' by (split; assumption).
      apply V. split; assumption.
    - intros R'. exists U. split; [exact EU|]. intros x y [Hx Hy]. rewrite V by (split; assumption). apply R'; assumption.
  Qed.
  Lemma touching_iff : forall h delta F u, touching s g h delta F u <-> st h delta F u.
  Proof. intros. unfold touching, state. rewrite response_iff. unfold on_grid. cbn [gx gy nth]. tauto. Qed.
  Lemma net_stiff : a_q0 a <> Some 0 -> net_stiffness s g (stiff wave_compliance).
  Proof.
    intros Q u. destruct (multiplier_total _ _ _ _ (force_multiplier a s H) u) as (f & H1 & H2).
    exists f. split; [exact H1|]. rewrite H2. unfold SS. rewrite Re_RtoC. unfold stiff.
    destruct (gx_pos a s H) as [P1 P2]. pose proof (wave_pos Q 0 0 P1 P2) as W. pose proof area_pos as A.
    assert (G0 : s_gf s 0%nat 0%nat <> 0).
    { intros Z. unfold wave_compliance in W. rewrite Z in W. lra. }
    assert (E : s_ss s 0%nat 0%nat = / s_gf s 0%nat 0%nat).
    { rewrite <- (nx_gx a s H) in P1. rewrite <- (ny_gy a s H) in P2.
      rewrite (ss_val a s H PA 0%nat 0%nat P1 P2). rewrite (gf_val a s H PA 0%nat 0%nat P1 P2) in *.
      destruct (zeroed _ _ _); [lra|]. pose proof (sigma_pos a s H PA 0%nat 0%nat P1 P2). field. lra. }
    rewrite E. unfold wave_compliance. field. split; lra.
  Qed.
  Lemma net_unique : forall k k', net_stiffness s g k -> net_stiffness s g k' -> k = k'.
  Proof.
    intros k k' K K'. destruct (K (fun _ _ => 1)) as (f & E & V). destruct (K' (fun _ _ => 1)) as (f' & E' & V').
    rewrite E in E'. injection E' as <-. rewrite V in V'. unfold HalfSpace_Spec.total in V'. rewrite Rsum2_const in V'.
    destruct (gx_pos a s H) as [P1 P2]. apply lt_0_INR in P1. apply lt_0_INR in P2.
    apply (Rmult_eq_reg_r (INR n * INR m * 1)); nra.
  Qed.
End Substrate.

(** ** One contact state *)
(** For every modulus, Poisson number, thickness of the layer and stiffness of the
    uniform displacement, on a line or a surface. *)
Theorem C93_one_state : forall a s h delta, construct a = Ret s -> pos_args a -> a_q0 a <> Some 0 ->
  exists F u, touching s (a_grid a) h delta F u
  /\ forall F' u', touching s (a_grid a) h delta F' u' ->
     forall x y, on_grid (a_grid a) x y -> F' x y = F x y /\ u' x y = u x y.
Proof.
  intros a s h delta H PA Q. destruct (gx_pos a s H) as [PX PY].
  destruct (Substrate_Contact.contact_exists _ _ PX PY _ (wave_pos a s H PA Q) (wave_Herm a s H) h) as [p C].
  exists (p delta), (comply (gx (a_grid a)) (gy (a_grid a)) (wave_compliance s) (p delta)).
  split; [apply (touching_iff a s H PA), C|]. intros F' u' C' x y [Hx Hy]. apply (touching_iff a s H PA) in C'.
  exact (Substrate_Contact.contact_unique _ _ PX PY _ (wave_pos a s H PA Q) (wave_Herm a s H) h delta _ _ _ _ C' (C delta) x y Hx Hy).
Qed.
Print Assumptions C93_one_state.

(** Pushing the surface further never lowers the mean force; it never grows faster
    than that of a flat surface and is never below that of a flat surface of the
    same mean height. *)
Theorem C93_load_curve : forall a s h delta delta' F u F' u' k, construct a = Ret s -> pos_args a -> a_q0 a <> Some 0 ->
  touching s (a_grid a) h delta F u -> touching s (a_grid a) h delta' F' u' -> delta <= delta' ->
  net_stiffness s (a_grid a) k ->
  mean (a_grid a) F <= mean (a_grid a) F' <= mean (a_grid a) F + k * (delta' - delta)
  /\ 0 <= mean (a_grid a) F /\ k * (mean (a_grid a) h + delta) <= mean (a_grid a) F.
Proof.
  intros a s h delta delta' F u F' u' k H PA Q C C' L K. destruct (gx_pos a s H) as [PX PY].
  rewrite (net_unique a s H k _ K (net_stiff a s H PA Q)). apply (touching_iff a s H PA) in C. apply (touching_iff a s H PA) in C'.
  split.
  - exact (Substrate_Contact.contact_load _ _ PX PY _ (wave_pos a s H PA Q) (wave_Herm a s H) h delta delta' F u F' u' C C' L).
  - exact (Substrate_Contact.contact_load_low _ _ PX PY _ (wave_pos a s H PA Q) (wave_Herm a s H) h delta F u C).
Qed.
Print Assumptions C93_load_curve.

(** The stiffness in these bounds, from the arguments of the constructor (C26). *)
Theorem C93_stiffness : forall a s, construct a = Ret s -> pos_args a -> a_q0 a <> Some 0 ->
  exists k, 0 < k /\ net_stiffness s (a_grid a) k
  /\ (forall k', net_stiffness s (a_grid a) k' -> k' = k)
  /\ (forall q, a_q0 a = Some q -> k = q * point_area (a_grid a) (a_sizes a))
  /\ (forall t, List.length (a_grid a) = 2%nat -> a_thick a = Some t ->
        k = uniaxial_stiffness (a_young a) (a_poisson a) t * point_area (a_grid a) (a_sizes a))
  /\ (a_q0 a = None -> a_thick a = None ->
        let w := wavenumber (a_grid a) (cell_size (a_sizes a) 0) (cell_size (a_sizes a) 1) in
        k = contact_modulus (a_young a) (a_poisson a) / 2
            * (if Nat.eqb (List.length (a_grid a)) 1 then w 1%nat 0%nat else (w 1%nat 0%nat + w 0%nat 1%nat) / 2)
            * point_area (a_grid a) (a_sizes a)).
Proof.
  intros a s H PA Q. destruct (gx_pos a s H) as [PX PY]. exists (stiff (wave_compliance s)).
  pose proof (net_stiff a s H PA Q) as K. split; [|split; [exact K|split]].
  - apply (Substrate_Contact.stiff_pos _ _ PX PY _ (wave_pos a s H PA Q)).
  - intros k' K'. exact (net_unique a s H _ _ K' K).
  - split; [|split].
    + intros q E. apply (net_unique a s H _ _ K). intros u. destruct (Prop_HalfSpace.C26_net_force a s u q H PA E) as (f & E1 & E2).
      exists f. split; [exact E1|]. rewrite E2. ring.
    + intros t L E. apply (net_unique a s H _ _ K). intros u.
      destruct (Prop_HalfSpace.C26_net_force_thickness a s u t H PA L E) as (f & E1 & E2).
      exists f. split; [exact E1|]. rewrite E2. ring.
    + intros E E' w. apply (net_unique a s H _ _ K). intros u.
      destruct (Prop_HalfSpace.C26_net_force_default a s u H PA E E') as (f & E1 & E2).
      exists f. split; [exact E1|]. rewrite E2. unfold w. ring.
Qed.
Print Assumptions C93_stiffness.

(** Every positive mean force belongs to one offset and one state. *)
Theorem C93_at_load : forall a s h P, construct a = Ret s -> pos_args a -> a_q0 a <> Some 0 -> 0 < P ->
  exists delta F u, touching s (a_grid a) h delta F u /\ mean (a_grid a) F = P
  /\ forall delta' F' u', touching s (a_grid a) h delta' F' u' -> mean (a_grid a) F' = P ->
     delta' = delta /\ forall x y, on_grid (a_grid a) x y -> F' x y = F x y /\ u' x y = u x y.
Proof.
  intros a s h P H PA Q PP. destruct (gx_pos a s H) as [PX PY].
  destruct (Substrate_Contact.contact_at_load _ _ PX PY _ (wave_pos a s H PA Q) (wave_Herm a s H) h P PP) as (delta & F & u & C & E).
  exists delta, F, u. split; [apply (touching_iff a s H PA); exact C|]. split; [exact E|]. intros delta' F' u' C' E'.
  apply (touching_iff a s H PA) in C'. change (mean (a_grid a) F') with (mean [gx (a_grid a); gy (a_grid a)] F') in E'.
  destruct (Substrate_Contact.contact_load_unique _ _ PX PY _ (wave_pos a s H PA Q) (wave_Herm a s H) h _ _ _ _ _ _ C' C) as [D S];
    [congruence|lra|].
  split; [exact D|]. intros x y [Hx Hy]. apply S; assumption.
Qed.
Print Assumptions C93_at_load.

(** ** Distance of computed states *)
(** [F]: forces at least [- tau]; [u]: their response, at least [- eps] above the surface. *)
Theorem C93_distance : forall a s h delta F u Fs us eps tau k, construct a = Ret s -> pos_args a -> a_q0 a <> Some 0 ->
  elastic_response s (a_grid a) F u -> touching s (a_grid a) h delta Fs us ->
  (forall x y, on_grid (a_grid a) x y -> - tau <= F x y /\ - eps <= gap h delta u x y) ->
  net_stiffness s (a_grid a) k ->
  let b := inner (a_grid a) F (gap h delta u) + tau * total (a_grid a) (gap h delta us) + eps * total (a_grid a) Fs in
  0 <= distance (a_grid a) F u Fs us <= b
  /\ INR (gx (a_grid a)) * INR (gy (a_grid a)) * (mean (a_grid a) F - mean (a_grid a) Fs) ^ 2 <= k * b.
Proof.
  intros a s h delta F u Fs us eps tau k H PA Q R1 C V K b. destruct (gx_pos a s H) as [PX PY].
  rewrite (net_unique a s H k _ K (net_stiff a s H PA Q)). apply (touching_iff a s H PA) in C. apply (response_iff a s H PA) in R1.
  pose proof (wave_pos a s H PA Q) as W. pose proof (wave_Herm a s H) as WH.
  assert (D : distance (a_grid a) F u Fs us <= b).
  { exact (Substrate_Contact.distance_exact _ _ _ h delta F u Fs us eps tau C (fun x y Hx Hy => V x y (conj Hx Hy))). }
  pose proof (Substrate_Contact.distance_mean _ _ PX PY _ W WH F u Fs us R1 (proj1 C)) as M.
  pose proof (Substrate_Contact.stiff_pos _ _ PX PY _ W) as S.
  change (distance [gx (a_grid a); gy (a_grid a)]) with (distance (a_grid a)) in M.
  change (mean [gx (a_grid a); gy (a_grid a)]) with (mean (a_grid a)) in M.
  split; [split; [|exact D]|].
  - apply (Rmult_le_reg_l (stiff (wave_compliance s))); [exact S|]. rewrite Rmult_0_r. eapply Rle_trans; [|exact M].
    apply Rmult_le_pos; [apply Rmult_le_pos; apply pos_INR|apply pow2_ge_0].
  - eapply Rle_trans; [exact M|]. apply Rmult_le_compat_l; [lra|exact D].
Qed.
Print Assumptions C93_distance.

(** No tension, and contact conditions met within [eps]. *)
Theorem C93_load_error : forall a s h delta F u Fs us eps k, construct a = Ret s -> pos_args a -> a_q0 a <> Some 0 ->
  elastic_response s (a_grid a) F u -> touching s (a_grid a) h delta Fs us ->
  0 <= eps -> nearly_in_contact (a_grid a) h delta F u eps -> net_stiffness s (a_grid a) k ->
  Rabs (sqrt (mean (a_grid a) F) - sqrt (mean (a_grid a) Fs)) <= sqrt (k * eps)
  /\ (eps = 0 -> forall x y, on_grid (a_grid a) x y -> F x y = Fs x y /\ u x y = us x y).
Proof.
  intros a s h delta F u Fs us eps k H PA Q R1 C PE V K. destruct (gx_pos a s H) as [PX PY].
  rewrite (net_unique a s H k _ K (net_stiff a s H PA Q)). apply (touching_iff a s H PA) in C. apply (response_iff a s H PA) in R1.
  pose proof (wave_pos a s H PA Q) as W. pose proof (wave_Herm a s H) as WH. split.
  - exact (Substrate_Contact.load_error _ _ PX PY _ W WH h delta F u Fs us eps R1 C PE V).
  - intros -> x y [Hx Hy]. apply (Substrate_Contact.contact_unique _ _ PX PY _ W WH h delta F u Fs us); try assumption.
    split; [exact R1|]. intros i j Q'. destruct (V i j Q') as (V1 & V2 & V3). split; [exact V1|]. split; [lra|].
    destruct (Rle_lt_or_eq_dec _ _ V1) as [P|P]; [specialize (V3 P)|rewrite <- P; ring].
    replace (gap h delta u i j) with 0 by lra. ring.
Qed.
Print Assumptions C93_load_error.

(** ** Substrates without stiffness against uniform displacement *)
(** [stiffness_q0 = 0]: the mean displacement is zero whatever the forces, so no state
    clears a surface whose mean height is positive. *)
Theorem C93_floating_none : forall a s h delta, construct a = Ret s -> pos_args a -> a_q0 a = Some 0 ->
  0 < mean (a_grid a) h + delta -> ~ exists F u, touching s (a_grid a) h delta F u.
Proof.
  intros a s h delta H PA Q P (F & u & (U & EU & VU) & C). destruct (gx_pos a s H) as [PX PY].
  destruct (multiplier_total _ _ _ _ (disp_multiplier a s H) (fun x y => - F x y)) as (U' & EU' & T).
  rewrite EU in EU'. injection EU' as <-. unfold GF in T. rewrite Re_RtoC in T.
  assert (Z : s_gf s 0%nat 0%nat = 0).
  { rewrite <- (nx_gx a s H) in PX. rewrite <- (ny_gy a s H) in PY. rewrite (gf_val a s H PA 0%nat 0%nat PX PY). unfold zeroed.
    destruct (construct_inv a s H) as [Hn _]. destruct (zero_thick_q0 _ _ Hn) as [E _]. rewrite E, Q. cbn [is_00 Nat.eqb andb].
    destruct (Req_bool_spec 0 0) as [_|N]; [reflexivity|exfalso; auto]. }
  rewrite Z, Rmult_0_r, Rmult_0_l in T. unfold HalfSpace_Spec.total in T.
  assert (S : Rsum2 (gx (a_grid a)) (gy (a_grid a)) h + delta * (INR (gx (a_grid a)) * INR (gy (a_grid a))) <= 0).
  { rewrite <- T. replace (delta * (INR (gx (a_grid a)) * INR (gy (a_grid a)))) with (INR (gx (a_grid a)) * INR (gy (a_grid a)) * delta) by ring.
    rewrite <- Rsum2_const, <- Rsum2_plus. apply Rsum2_le. intros x y Hx Hy. destruct (C x y (conj Hx Hy)) as (_ & C2 & _).
    rewrite <- (VU x y (conj Hx Hy)). unfold gap in C2. lra. }
  unfold mean, HalfSpace_Spec.total in P. apply lt_0_INR in PX. apply lt_0_INR in PY.
  assert (0 < INR (gx (a_grid a)) * INR (gy (a_grid a))) by nra.
  apply (Rmult_lt_compat_r (INR (gx (a_grid a)) * INR (gy (a_grid a)))) in P; [|assumption].
  rewrite Rmult_0_l, Rmult_plus_distr_r in P. unfold Rdiv in P. rewrite Rmult_assoc, Rinv_l, Rmult_1_r in P by lra. lra.
Qed.
Print Assumptions C93_floating_none.

(** ** The solver *)
Lemma sub_compliant : forall a s, construct a = Ret s -> pos_args a -> a_q0 a <> Some 0 -> forall g, g = a_grid a ->
  CCG_Spec.compliant (points g) (respond g (evaluate_disp s)).
Proof.
  intros a s H PA Q g ->. destruct (gx_pos a s H) as [PX PY].
  intros f (z & _ & Z). set (F := write (a_grid a) 0 (fun p => - f p)).
  destruct (disp_comply a s H PA F) as (U & EU & V).
  assert (E : evaluate_disp s (mkArr (a_grid a) (write (a_grid a) 0 f)) = Ret U).
  { rewrite <- EU. do 2 f_equal. apply FunctionalExtensionality.functional_extensionality. intros x.
    apply FunctionalExtensionality.functional_extensionality. intros y. unfold F, write. destruct (bool_dec _ _); lra. }
  rewrite sum_points. set (n := gx (a_grid a)) in *. set (m := gy (a_grid a)) in *.
  destruct (bounds_2 n m (wave_compliance s) (wave_pos a s H PA Q)) as (lo & hi & PL & _ & B).
  pose proof (Substrate_Contact.Comp_low n m PX PY _ (wave_Herm a s H) lo F (fun k l K L => proj1 (B k l K L))) as L.
  assert (PZ : F (px z) (py z) = - f z) by (unfold F; rewrite write_at; reflexivity).
  pose proof (pt_inside (a_grid a) z) as [IX IY].
  assert (S : 0 < Rsum2 n m (fun x y => F x y * F x y)).
  { apply Rlt_le_trans with (F (px z) (py z) * F (px z) (py z)).
    - rewrite PZ. apply Rlt_0_sqr. lra.
    - apply (Rsum2_term n m (fun x y => F x y * F x y)); try assumption. intros. apply Rle_0_sqr. }
  replace (- Rsum2 n m (write (a_grid a) 0 (fun p0 : pt (a_grid a) => f p0 * respond (a_grid a) (evaluate_disp s) f p0)))
    with (Rsum2 n m (fun x y => F x y * comply n m (wave_compliance s) F x y)).
  - eapply Rlt_le_trans; [|exact L]. apply Rmult_lt_0_compat; assumption.
  - replace (- Rsum2 n m (write (a_grid a) 0 (fun p0 : pt (a_grid a) => f p0 * respond (a_grid a) (evaluate_disp s) f p0)))
      with (-1 * Rsum2 n m (write (a_grid a) 0 (fun p0 : pt (a_grid a) => f p0 * respond (a_grid a) (evaluate_disp s) f p0))) by ring.
    rewrite <- !Rsum2_scal. apply Rsum2_ext. intros x y Hx Hy. rewrite <- (V x y (conj Hx Hy)). unfold F, respond. rewrite E.
    rewrite !(write_in _ (a_grid a) _ _ x y (conj Hx Hy)). unfold read, px, py, at_pt. cbn [proj1_sig fst snd]. ring.
Qed.

Lemma points_count : forall g, List.length (points g) = (gx g * gy g)%nat.
Proof.
  intros g. unfold points.
  assert (A : forall l, (forall p, In p l -> inside g p = true) -> List.length (flat_map (here g) l) = List.length l).
  { induction l as [|p l IH]; intros H; [reflexivity|]. cbn [flat_map]. rewrite app_length, IH by (intros; apply H; right; assumption).
    unfold here. destruct (bool_dec _ _) as [K|K]; [reflexivity|]. exfalso. apply K, H. left. reflexivity. }
  rewrite A; [rewrite prod_length, !seq_length; reflexivity|]. intros [x y] I. apply in_prod_iff in I. rewrite !in_seq in I.
  apply inside_true. lia.
Qed.

Lemma solver_near : forall o a s sf ext off pentol maxiter r,
  construct a = Ret s -> pos_args a -> 0 <= pentol ->
  (forall P, ext = Some P -> 0 <= P) ->
  CCG_Spec.ccg (solver_cfg o (periodic s) sf None ext off pentol) maxiter = CCG_Model.Ok r ->
  CCG_Model.x_success r = true -> CCG_Model.x_str r = CCG_Model.Cg ->
  CCG_Model.x_tau r <> 0 \/ (CCG_Model.x_nit r = 1%nat /\ a_q0 a <> Some 0) ->
  (ext <> None -> forall z, CCG_Model.x_active r z = false -> CCG_Model.x_jac r z = 0) ->
  let F := a_val (o_jac (result_object (periodic s) r)) in
  let u := a_val (o_x (result_object (periodic s) r)) in
  let eps := pentol * (1 + sqrt (INR (gx (a_grid a) * gy (a_grid a)))) in
  elastic_response s (a_grid a) F u
  /\ nearly_in_contact (a_grid a) (a_val (heights sf)) (CCG_Model.x_offset r) F u eps.
Proof.
  intros o a s sf ext off pentol maxiter r H PA PT EX RUN SU ST TA IA F u eps.
  set (c := solver_cfg o (periodic s) sf None ext off pentol) in *.
  assert (GS : sb_sub (periodic s) = a_grid a) by exact (hs_grid _ _ H).
  assert (CS : comp_shape (periodic s) = a_grid a).
  { assert (Min : forall g : list nat, map (fun p => Nat.min (fst p) (snd p)) (combine g g) = g).
    { induction g as [|q g IH]; [reflexivity|]. cbn. rewrite IH, Nat.min_id. reflexivity. }
    unfold comp_shape. cbn [periodic sb_topo sb_sub sb_grid]. rewrite ?(hs_grid _ _ H). apply Min. }
  assert (IN : forall z : pt (sb_sub (periodic s)), (px z < gx (a_grid a))%nat /\ (py z < gy (a_grid a))%nat).
  { clear - GS. revert GS. generalize (sb_sub (periodic s)). intros g' -> z. exact (pt_inside (a_grid a) z). }
  assert (OS : forall z, CCG_Spec.on_surface c z).
  { intros z. apply cfg_surface. rewrite CS. apply inside_true. exact (IN z). }
  assert (CO : a_q0 a <> Some 0 -> CCG_Spec.compliant (CCG_Spec.grid c) (CCG_Model.c_disp c)).
  { intros Q. unfold c. rewrite cfg_grid. cbn [solver_cfg CCG_Model.c_disp]. apply (sub_compliant a s H PA Q). exact GS. }
  destruct (CCG_Results2.converged_elastic c maxiter r eq_refl) as (L1 & L2 & L3 & L4); try assumption.
  assert (TA' : CCG_Model.x_tau r <> 0 \/ CCG_Model.x_nit r = 1%nat /\ CCG_Spec.compliant (CCG_Spec.grid c) (CCG_Model.c_disp c)) by tauto.
  specialize (L4 TA'). clear TA TA'.
  assert (NA : 0 <= sqrt (INR (CCG_Spec.n_active c r)) <= sqrt (INR (gx (a_grid a) * gy (a_grid a)))).
  { split; [apply sqrt_pos|]. apply sqrt_le_1_alt, le_INR. unfold CCG_Spec.n_active, c. rewrite cfg_grid.
    eapply Nat.le_trans; [apply filter_le|]. rewrite GS, points_count. lia. }
  assert (EP : 0 <= eps) by (apply Rmult_le_pos; [exact PT|lra]).
  assert (V : nearly_in_contact (a_grid a) (a_val (heights sf)) (CCG_Model.x_offset r) F u eps).
  { intros x y [Hx Hy]. unfold F, u. cbn [result_object o_jac o_x a_val].
    assert (HG : (x < gx (sb_sub (periodic s)))%nat /\ (y < gy (sb_sub (periodic s)))%nat) by (rewrite GS; split; assumption).
    unfold gap. rewrite !(write_in _ (sb_sub (periodic s)) _ _ x y HG). set (z := at_pt (sb_sub (periodic s)) x y HG).
    assert (IZ : In z (CCG_Spec.grid c)) by apply cfg_covers. specialize (L1 z IZ (OS z)). specialize (L2 z). specialize (L3 z).
    specialize (L4 z IZ (OS z)).
    assert (GZ : CCG_Spec.gap c r z = CCG_Model.x_x r z - a_val (heights sf) x y - CCG_Model.x_offset r) by reflexivity.
    rewrite GZ in *. change (CCG_Model.c_pentol c) with pentol in *.
    split; [exact L2|].
    assert (PE : pentol <= eps).
    { unfold eps. rewrite Rmult_plus_distr_l, Rmult_1_r. assert (0 <= pentol * sqrt (INR (gx (a_grid a) * gy (a_grid a)))) by (apply Rmult_le_pos; lra). lra. }
    split; [lra|]. intros PP. destruct (CCG_Model.x_active r z) eqn:AZ.
    - specialize (L4 eq_refl). apply Rabs_def2 in L4. destruct L4 as [L4 _]. left. eapply Rlt_le_trans; [exact L4|].
      unfold eps. apply Rmult_le_compat_l; lra.
    - exfalso. destruct ext as [P|].
      + rewrite (IA ltac:(discriminate) z AZ) in PP. lra.
      + destruct (L3 eq_refl) as [Z|(P & E & _)]; [lra|discriminate]. }
  assert (RS : elastic_response s (a_grid a) F u).
  { assert (SV : ccg_solver o (periodic s) sf None (mkSa (Some off) ext pentol maxiter) = Ret (result_object (periodic s) r)).
    { rewrite solver_eq.
      - cbn [sa_offset sa_force sa_pentol sa_maxiter]. fold c. rewrite RUN. reflexivity.
      - cbn [periodic sb_grid]. rewrite (hs_grid _ _ H). destruct (construct_inv a s H) as [Hn _]. exact (proj1 (new_inv _ _ Hn)). }
    assert (NN : nonneg None) by (intros ? ?; discriminate).
    destruct (solver_response _ _ _ _ _ _ NN SV) as (_ & _ & OUT & UU). fold u F in UU, OUT.
    destruct (disp_comply a s H PA F) as (U & EU & VU). exists U. split; [exact EU|]. intros x y G. rewrite UU.
    assert (W : forall g' ev (J : field), g' = a_grid a -> write g' 0 (respond g' ev (fun p => - J (px p) (py p)))
       = write (a_grid a) 0 (respond (a_grid a) ev (fun p => - J (px p) (py p)))) by (intros; subst; reflexivity).
    rewrite (W _ _ _ GS). rewrite (write_in _ (a_grid a) _ _ x y G). unfold respond. cbn [periodic sb_disp].
    replace (write (a_grid a) 0 (fun p : pt (a_grid a) => - F (px p) (py p))) with (fun x y => - F x y); [rewrite EU; reflexivity|].
    apply FunctionalExtensionality.functional_extensionality. intros i. apply FunctionalExtensionality.functional_extensionality. intros j.
    unfold write. destruct (bool_dec _ _) as [B|B]; [reflexivity|]. rewrite OUT; [ring|]. rewrite CS. intros G'. apply B.
    apply inside_true. exact G'. }
  split; [exact RS|exact V].
Qed.

(** A converged calculation, at a prescribed offset ([ext = None]) or load, whose last
    iteration had status [cg] and a step (both in the verbose log).  [Fs], [us]: the state
    at the offset returned. *)
Theorem C93_solver : forall o a s sf ext off pentol maxiter r Fs us k,
  construct a = Ret s -> pos_args a -> a_q0 a <> Some 0 -> 0 <= pentol ->
  (forall P, ext = Some P -> 0 <= P) ->
  CCG_Spec.ccg (solver_cfg o (periodic s) sf None ext off pentol) maxiter = CCG_Model.Ok r ->
  CCG_Model.x_success r = true -> CCG_Model.x_str r = CCG_Model.Cg ->
  CCG_Model.x_tau r <> 0 \/ CCG_Model.x_nit r = 1%nat ->
  (ext <> None -> forall z, CCG_Model.x_active r z = false -> CCG_Model.x_jac r z = 0) ->
  touching s (a_grid a) (a_val (heights sf)) (CCG_Model.x_offset r) Fs us ->
  net_stiffness s (a_grid a) k ->
  let F := a_val (o_jac (result_object (periodic s) r)) in
  let u := a_val (o_x (result_object (periodic s) r)) in
  let eps := pentol * (1 + sqrt (INR (gx (a_grid a) * gy (a_grid a)))) in
  elastic_response s (a_grid a) F u
  /\ nearly_in_contact (a_grid a) (a_val (heights sf)) (CCG_Model.x_offset r) F u eps
  /\ Rabs (sqrt (mean (a_grid a) F) - sqrt (mean (a_grid a) Fs)) <= sqrt (k * eps).
Proof.
  intros o a s sf ext off pentol maxiter r Fs us k H PA Q PT EX RUN SU ST TA IA C K F u eps.
  destruct (solver_near o a s sf ext off pentol maxiter r H PA PT EX RUN SU ST) as [RS V]; [tauto|exact IA|].
  fold F u eps in RS, V. split; [exact RS|]. split; [exact V|].
  assert (EP : 0 <= eps) by (apply Rmult_le_pos; [exact PT|pose proof (sqrt_pos (INR (gx (a_grid a) * gy (a_grid a)))); lra]).
  exact (proj1 (C93_load_error a s (a_val (heights sf)) (CCG_Model.x_offset r) F u Fs us eps k H PA Q RS C EP V K)).
Qed.
Print Assumptions C93_solver.

(** A layer of thickness 3 on a 4 x 3 grid: a rough surface pressed with a mean force of
    one; a line with given stiffness; a substrate that resists no uniform displacement. *)
Example C93_nonvacuous :
  (exists s delta F u, construct hsD = Ret s /\ pos_args hsD /\ a_q0 hsD <> Some 0 /\ a_thick hsD = Some 3
     /\ touching s (a_grid hsD) (fun x y => INR (x * y)) delta F u /\ mean (a_grid hsD) F = 1
     /\ nearly_in_contact (a_grid hsD) (fun x y => INR (x * y)) delta F u (1 / 10) /\ exists k, net_stiffness s (a_grid hsD) k)
  /\ (exists s F u, construct hsE = Ret s /\ pos_args hsE /\ a_q0 hsE = Some 7
     /\ touching s (a_grid hsE) (fun x _ => INR x) (-1) F u /\ 0 < mean (a_grid hsE) F)
  /\ (exists s, construct hsB = Ret s /\ pos_args hsB /\ a_q0 hsB = Some 0
     /\ 0 < mean (a_grid hsB) (fun x _ => INR x) + 1).
Proof.
  split; [|split].
  - destruct hsD_ok as [s E]. assert (Q : a_q0 hsD <> Some 0) by discriminate.
    destruct (C93_at_load hsD s (fun x y => INR (x * y)) 1 E hsD_pos Q Rlt_0_1) as (delta & F & u & C & M & _).
    exists s, delta, F, u. split; [exact E|]. split; [exact hsD_pos|]. split; [exact Q|]. split; [reflexivity|].
    split; [exact C|]. split; [exact M|]. split.
    + intros x y G. destruct (proj2 C x y G) as (C1 & C2 & C3). split; [exact C1|]. split; [lra|]. intros P.
      apply Rmult_integral in C3. lra.
    + exists (stiff (wave_compliance s)). exact (net_stiff hsD s E hsD_pos Q).
  - destruct hsE_ok as [s E]. assert (Q : a_q0 hsE <> Some 0) by (cbn; intros Z; injection Z; lra).
    destruct (C93_one_state hsE s (fun x _ => INR x) (-1) E hsE_pos Q) as (F & u & C & _).
    exists s, F, u. split; [exact E|]. split; [exact hsE_pos|]. split; [reflexivity|]. split; [exact C|].
    destruct (C93_stiffness hsE s E hsE_pos Q) as (k & KP & K & _).
    destruct (C93_load_curve hsE s _ _ _ F u F u k E hsE_pos Q C C (Rle_refl _) K) as (_ & _ & L).
    eapply Rlt_le_trans; [|exact L]. apply Rmult_lt_0_compat; [exact KP|].
    unfold mean, HalfSpace_Spec.total. cbn [hsE a_grid gx gy nth]. unfold Rsum2. cbn [Rsum]. cbn [INR]. lra.
  - destruct hsB_ok as [s E]. exists s. split; [exact E|]. split; [exact hsB_pos|]. split; [reflexivity|].
    assert (0 <= mean (a_grid hsB) (fun x _ => INR x)); [|lra].
    unfold mean, HalfSpace_Spec.total. apply Rmult_le_pos; [apply Rsum2_nonneg; intros; apply pos_INR|].
    left. apply Rinv_0_lt_compat. cbn. lra.
Qed.

(** Hypotheses of [C93_solver]. *)
Example C93_solver_nonvacuous : exists s r Fs us k,
  let a := periodic_args [2; 2]%nat [1; 1] in
  construct a = Ret s /\ pos_args a /\ a_q0 a <> Some 0
  /\ CCG_Spec.ccg (solver_cfg usual (periodic s) (rows (1 / 2) (- 1 / 2)) None None 0 (1 / 100)) 100 = CCG_Model.Ok r
  /\ CCG_Model.x_success r = true /\ CCG_Model.x_str r = CCG_Model.Cg /\ CCG_Model.x_nit r = 1%nat
  /\ touching s (a_grid a) (a_val (heights (rows (1 / 2) (- 1 / 2)))) (CCG_Model.x_offset r) Fs us
  /\ net_stiffness s (a_grid a) k.
Proof.
  destruct C78_solver_nonvacuous as (sb & r & HS & RUN & SU & ST & NI).
  destruct (half_space_cases _ _ _ _ HS) as [(_ & s & CH & ->)|(Q & _)]; [|discriminate].
  assert (PA : pos_args (periodic_args [2; 2]%nat [1; 1])).
  { split; [|split; [cbn; lra|split; [cbn; lra|split; cbn; intros ? ?; discriminate]]]. intros z [<-|[<-|[]]]; lra. }
  assert (Q : a_q0 (periodic_args [2; 2]%nat [1; 1]) <> Some 0) by discriminate.
  destruct (C93_one_state _ s (a_val (heights (rows (1 / 2) (- 1 / 2)))) (CCG_Model.x_offset r) CH PA Q) as (Fs & us & C & _).
  exists s, r, Fs, us, (stiff (wave_compliance s)). cbv zeta. split; [exact CH|]. split; [exact PA|]. split; [exact Q|].
  split; [exact RUN|]. split; [exact SU|]. split; [exact ST|]. split; [exact NI|]. split; [exact C|]. exact (net_stiff _ s CH PA Q).
Qed.
