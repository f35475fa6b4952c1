(** * Primal objective, optimality conditions, state of the systems *)
From Coq Require Import Reals ZArith Lia Lra List Arith Bool.
From Verif Require Import Py FFT_Base HalfSpace_Model HalfSpace_Spec HalfSpace_Proofs
  HalfSpace_Results HalfSpace_Results2 HalfSpace_Results3 Free_Model Free_Spec Free_Proofs Prop_HalfSpace
  Systems_Model Systems_Spec Systems_Proofs.
Import ListNotations.
Local Open Scope R_scope.

(** A substrate whose energy is the quadratic form of its force operator. *)
Record quadop (g : list nat) (sb : substrate) (L : field -> field) : Prop := mkQuad {
  qo_eval : forall u, exists v, sb_eval sb (mkArr g u) true true
      = Ret (Some (- (1 / 2) * inner g u (L u)), Some (mkArr g v)) /\ same_on g v (L u);
  qo_energy : forall u, sb_eval sb (mkArr g u) true false
      = Ret (Some (- (1 / 2) * inner g u (L u)), None) }.

Section Primal.
  Variables (sb : substrate) (sf : surface) (g : list nat) (L : field -> field).
  Hypothesis G : okgrid g.
  Hypothesis T : sb_topo sb = g.
  Hypothesis U : sb_sub sb = g.
  Hypothesis F : sf_grid sf = g.
  Hypothesis S : symop g (sb_force sb) L.
  Hypothesis Q : quadop g sb L.

  Let h : field := a_val (heights sf).

  Lemma head_slice_same : forall f, head_slice g (mkArr g f) = Ret (mkArr g f).
  Proof.
    intros f. unfold head_slice. cbn [a_shape a_val]. rewrite Nat.ltb_irrefl.
    do 2 f_equal. destruct G as [[E|E] _]; destruct g as [|n [|m [|? ?]]]; try discriminate;
    cbn; rewrite ?Nat.min_id; reflexivity.
  Qed.

  Lemma gap_value : forall u off, exists d, compute_gap sb sf (mkArr g u) off = Ret (mkArr g d)
    /\ same_on g d (fun x y => u x y - h x y - off).
  Proof.
    intros u off. unfold compute_gap. rewrite T, head_slice_same. cbn [bind].
    rewrite (heights_eq sf g F).
    change (amap (fun z : R => z + off) (mkArr g h)) with (mkArr g (fun x y => h x y + off)).
    destruct (binop_same Rminus g u (fun x y => h x y + off) G) as (d & D1 & D2).
    exists d. split; [exact D1|]. intros x y Hg. rewrite D2 by exact Hg. ring.
  Qed.

  (** [evaluate] on a displacement field of the right shape. *)
  Lemma evaluate_value : forall u off gr y, exists d v y',
    evaluate_sys sb sf (mkArr g u) off true gr y
      = (y', Ret (Some (- (1 / 2) * inner g u (L u)), if gr then Some (mkArr g v) else None))
    /\ same_on g v (L u) /\ same_on g d (fun x y => u x y - h x y - off)
    /\ y_gap y' = Some (mkArr g d) /\ y_energy y' = Some (- (1 / 2) * inner g u (L u))
    /\ y_senergy y' = y_energy y'
    /\ y_force y' = (if gr then Some (mkArr g v) else None) /\ y_sforce y' = y_force y'
    /\ y_disp y' = y_disp y /\ y_zone y' = y_zone y /\ y_offset y' = y_offset y.
  Proof.
    intros u off gr y. destruct (gap_value u off) as (d & D1 & D2).
    destruct (qo_eval _ _ _ Q u) as (v & V1 & V2). pose proof (qo_energy _ _ _ Q u) as V3.
    exists d, v. unfold evaluate_sys, mbind, lift, upd, mret. rewrite D1.
    destruct gr; [rewrite V1|rewrite V3]; cbn [fst snd];
    (eexists; split; [reflexivity|]; split; [exact V2|]; split; [exact D2|]; repeat split).
  Qed.

  Lemma objective_value : forall off gr x y, size (a_shape x) = points g ->
    let u := unflat g x in exists v y',
    objective sb sf off gr x y
      = (y', Ret (Some (- (1 / 2) * inner g u (L u)),
                  if gr then Some v else None))
    /\ a_shape v = [points g] /\ same_entries (points g) v (mkArr g (fun i j => - L u i j)).
  Proof.
    intros off gr x y Hx u. unfold objective. rewrite U, (reshape_ok x g Hx). fold u.
    unfold mbind, lift.
    destruct (evaluate_value u off gr y) as (d & v & y' & E1 & E2 & _). rewrite E1.
    exists (amap Ropp (ravel (mkArr g v))), y'. split.
    { destruct gr; reflexivity. }
    split; [reflexivity|]. intros k Hk. rewrite entry_map, entry_ravel, (entry_ext g v _ k G E2 Hk). reflexivity.
  Qed.

  Lemma primal_value : forall off gr x y, size (a_shape x) = points g ->
    let u := fun i j => unflat g x i j + h i j + off in exists v y',
    primal_objective sb sf off gr x y
      = (y', Ret (Some (- (1 / 2) * inner g u (L u)), if gr then Some v else None))
    /\ a_shape v = [points g] /\ same_entries (points g) v (mkArr g (fun i j => - L u i j)).
  Proof.
    intros off gr x y Hx u. unfold primal_objective. rewrite U, (reshape_ok x g Hx).
    unfold mbind, lift. rewrite (heights_eq sf g F). fold h.
    destruct (binop_same Rplus g (unflat g x) h G) as (w & W1 & W2). rewrite W1.
    change (amap (fun z : R => z + off) (mkArr g w)) with (mkArr g (fun i j => w i j + off)).
    rewrite (reshape_ok (mkArr g (fun i j => w i j + off)) g eq_refl).
    set (u' := unflat g _).
    assert (E : same_on g u' u).
    { intros i j Hg. unfold u', unflat. rewrite entry_grid by apply Hg. unfold u.
      rewrite W2 by exact Hg. reflexivity. }
    destruct (evaluate_value u' off gr y) as (d & v & y' & E1 & E2 & _). rewrite E1.
    pose proof (so_ext _ _ _ S _ _ E) as E3.
    exists (amap Ropp (ravel (mkArr g v))), y'. split.
    { rewrite (inner_ext g u' u (L u') (L u) E E3). destruct gr; reflexivity. }
    split; [reflexivity|]. intros k Hk.
    rewrite entry_map, entry_ravel, (entry_ext g v _ k G E2 Hk), (entry_ext g _ _ k G E3 Hk). reflexivity.
  Qed.

  Lemma hessian_value : forall d, size (a_shape d) = points g ->
    exists hd, primal_hessian_product sb d = Ret hd /\ a_shape hd = a_shape d
      /\ same_entries (points g) hd (mkArr g (fun x y => - L (unflat g d) x y)).
  Proof.
    intros d Hd. unfold primal_hessian_product. rewrite U, (reshape_ok d g Hd). cbn [bind].
    destruct (so_ret _ _ _ S (unflat g d)) as (u & U1 & U2). rewrite U1. cbn [bind].
    unfold amap. cbn [a_shape a_val].
    unfold reshape. cbn [a_shape]. rewrite size_npts, Hd, Nat.eqb_refl.
    eexists. split; [reflexivity|]. split; [reflexivity|].
    intros k Hk. unfold entry at 1. cbn [a_shape a_val]. rewrite flat_entry.
    rewrite size_npts in Hd.
    assert (M0 : nth 1 (a_shape d) 1%nat <> 0%nat).
    { intros E. assert (points (a_shape d) = 0)%nat.
      { unfold points. destruct (a_shape d) as [|n [|m l]]; cbn in E; try discriminate. subst m. cbn. lia. }
      lia. }
    replace (k / nth 1 (a_shape d) 1 * nth 1 (a_shape d) 1 + k mod nth 1 (a_shape d) 1)%nat with k
      by (pose proof (Nat.div_mod k _ M0); nia).
    apply entry_ext; [exact G| |exact Hk].
    intros x y Hg. rewrite U2 by exact Hg. reflexivity.
  Qed.

  Lemma primal_expand : forall off x d y, size (a_shape x) = points g -> a_shape d = a_shape x ->
    exists E gr E' gr' hd y1 y2 y3,
      primal_objective sb sf off true x y = (y1, Ret (Some E, Some gr))
      /\ primal_objective sb sf off false x y = (y3, Ret (Some E, None))
      /\ primal_objective sb sf off true (arr_add x d) y = (y2, Ret (Some E', Some gr'))
      /\ primal_hessian_product sb d = Ret hd /\ a_shape hd = a_shape d
      /\ E' = E + vdot (points g) gr d + 1 / 2 * vdot (points g) hd d
      /\ (forall k, (k < points g)%nat -> entry gr' k = entry gr k + entry hd k).
  Proof.
    intros off x d y Hx Hd.
    destruct (primal_value off true x y Hx) as (gr & y1 & A1 & _ & A2).
    destruct (primal_value off false x y Hx) as (gr0 & y3 & A3 & _).
    destruct (primal_value off true (arr_add x d) y Hx) as (gr' & y2 & B1 & _ & B2).
    destruct (hessian_value d) as (hd & C1 & C2 & C3).
    { rewrite Hd. exact Hx. }
    set (u := fun i j => unflat g x i j + h i j + off) in *.
    set (u' := fun i j => unflat g (arr_add x d) i j + h i j + off) in *.
    set (q := unflat g d) in *.
    assert (X : same_on g u' (fun i j => u i j + q i j)).
    { intros i j _. unfold u', u, q. rewrite unflat_add by exact Hd. ring. }
    eexists _, gr, _, gr', hd, y1, y2, y3. do 5 (split; [eassumption|]). split.
    - rewrite (vdot_field g gr _ d G A2), (vdot_field g hd _ d G C3).
      rewrite (inner_ext g _ _ _ _ X (so_ext _ _ _ S _ _ X)), (quad_add _ _ _ S). fold q.
      rewrite (inner_ext g (fun i j => - L u i j) (fun x y => (-1) * L u x y + 0 * L u x y) q q)
        by (intros ? ? _; ring).
      rewrite (inner_ext g (fun x y => - L q x y)
         (fun x y => (-1) * L q x y + 0 * L q x y) q q) by (intros ? ? _; ring).
      rewrite !inner_lin. rewrite (inner_comm g (L u) q), (inner_comm g (L q) q). lra.
    - intros k Hk. rewrite A2, B2, C3 by exact Hk. rewrite !entry_mk by exact G.
      pose proof (on_grid_k g k G Hk) as K.
      rewrite (so_ext _ _ _ S _ _ X _ _ K). rewrite (so_add _ _ _ S) by exact K. fold q. ring.
  Qed.
End Primal.

(** ** Optimality on the non-negative orthant *)
Lemma vdot_add_l : forall n a b c, a_shape b = a_shape a ->
  vdot n (arr_add a b) c = vdot n a c + vdot n b c.
Proof.
  intros n a b c H. unfold vdot. rewrite <- Rsum_plus. apply Rsum_ext. intros k _.
  unfold entry, arr_add. cbn [a_shape a_val]. rewrite H. ring.
Qed.

(** [f] with gradient [gr] and Hessian [hs] has an exact second-order
    expansion on arrays of shape [sh]. *)
Record quadratic (sh : list nat) (n : nat) (f : arr -> R) (gr hs : arr -> arr) : Prop := mkQd {
  qd_expand : forall x d, a_shape x = sh -> a_shape d = sh ->
    f (arr_add x d) = f x + vdot n (gr x) d + 1 / 2 * vdot n (hs d) d;
  qd_ext : forall x x', a_shape x = sh -> a_shape x' = sh -> same_entries n x x' -> f x = f x';
  qd_scale : forall x t d, a_shape d = sh -> a_shape x = sh -> (forall k, (k < n)%nat -> entry d k = t * entry x k) ->
    vdot n (hs d) d = t ^ 2 * vdot n (hs x) x }.

Lemma vdot_scal_r : forall n a b c t, (forall k, (k < n)%nat -> entry b k = t * entry c k) ->
  vdot n a b = t * vdot n a c.
Proof.
  intros n a b c t H. unfold vdot. rewrite <- Rsum_scal. apply Rsum_ext. intros k Hk.
  rewrite H by exact Hk. ring.
Qed.

Lemma vdot_comm : forall n a b, vdot n a b = vdot n b a.
Proof. intros. unfold vdot. apply Rsum_ext. intros. ring. Qed.

Definition scaled (t : R) (x : arr) : arr := mkArr (a_shape x) (fun i j => t * a_val x i j).
Lemma entry_scaled : forall t x k, entry (scaled t x) k = t * entry x k.
Proof. reflexivity. Qed.
Lemma entry_add : forall x d k, a_shape d = a_shape x -> entry (arr_add x d) k = entry x k + entry d k.
Proof. intros x d k H. unfold entry, arr_add. cbn [a_shape a_val]. rewrite H. reflexivity. Qed.

Lemma entry_unit : forall sh k j, (nth 1 sh 1%nat <> 0)%nat ->
  entry (mkArr sh (fun x y => if Nat.eqb (x * nth 1 sh 1 + y)%nat k then 1 else 0)) j
  = (if Nat.eqb j k then 1 else 0).
Proof.
  intros sh k j H. unfold entry. cbn [a_shape a_val].
  replace (j / nth 1 sh 1 * nth 1 sh 1 + j mod nth 1 sh 1)%nat with j
    by (pose proof (Nat.div_mod j _ H); nia). reflexivity.
Qed.

(** If [a t + b t^2 >= 0] for small positive [t] then [a >= 0]. *)
Lemma slope_nonneg : forall a b, (forall t, 0 < t <= 1 -> 0 <= a * t + b * t ^ 2) -> 0 <= a.
Proof.
  intros a b H. destruct (Rle_dec 0 a) as [A|A]; [exact A|]. exfalso.
  pose proof (Rabs_pos b) as B.
  set (t := Rmin 1 (- a / (2 * (Rabs b + 1)))).
  assert (P : 0 < - a / (2 * (Rabs b + 1))) by (apply Rdiv_lt_0_compat; lra).
  assert (T : 0 < t <= 1).
  { unfold t. split; [apply Rmin_glb_lt; lra|apply Rmin_l]. }
  specialize (H t T).
  assert (T2 : t <= - a / (2 * (Rabs b + 1))) by apply Rmin_r.
  assert (T3 : t * (2 * (Rabs b + 1)) <= - a).
  { apply (Rmult_le_compat_r (2 * (Rabs b + 1))) in T2; [|lra].
    replace (- a / (2 * (Rabs b + 1)) * (2 * (Rabs b + 1))) with (- a) in T2 by (field; lra). exact T2. }
  assert (b <= Rabs b) by apply Rle_abs.
  nra.
Qed.

Section KKT.
  Variables (sh : list nat) (n : nat) (f : arr -> R) (gr hs : arr -> arr).
  Hypothesis Qd : quadratic sh n f gr hs.
  Hypothesis N : (nth 1 sh 1%nat <> 0)%nat.

  Lemma kkt_sufficient : (forall d, a_shape d = sh -> 0 <= vdot n (hs d) d) ->
    forall x, a_shape x = sh -> complementary n x (gr x) ->
    forall z, a_shape z = sh -> nonneg n z -> f x <= f z.
  Proof.
    intros PSD x Hx (X1 & X2 & X3) z Hz Z.
    set (d := arr_add z (scaled (-1) x)).
    assert (Hd : a_shape d = sh) by exact Hz.
    assert (Dk : forall k, entry d k = entry z k - entry x k).
    { intros k. unfold d. rewrite entry_add by (cbn; congruence). rewrite entry_scaled. ring. }
    rewrite <- (qd_ext _ _ _ _ _ Qd (arr_add x d) z).
    - rewrite (qd_expand _ _ _ _ _ Qd x d Hx Hd).
      assert (V : vdot n (gr x) d = vdot n (gr x) z).
      { assert (vdot n (gr x) d = vdot n (gr x) z - vdot n x (gr x)).
        { unfold vdot. rewrite <- (Rmult_1_l (Rsum n (fun k => entry x k * entry (gr x) k))).
          unfold Rminus. rewrite Ropp_mult_distr_l, <- Rsum_scal, <- Rsum_plus.
          apply Rsum_ext. intros k _. rewrite Dk. ring. }
        lra. }
      rewrite V. specialize (PSD d Hd).
      assert (0 <= vdot n (gr x) z).
      { apply Rsum_nonneg. intros k Hk. apply Rmult_le_pos; [apply X2|apply Z]; exact Hk. }
      lra.
    - exact Hx.
    - exact Hz.
    - intros k _. rewrite entry_add by congruence. rewrite Dk. ring.
  Qed.

  Lemma kkt_necessary : forall x, a_shape x = sh -> nonneg n x ->
    (forall z, a_shape z = sh -> nonneg n z -> f x <= f z) -> complementary n x (gr x).
  Proof.
    intros x Hx X Min. split; [exact X|]. split.
    - intros k Hk.
      set (e := mkArr sh (fun i j => if Nat.eqb (i * nth 1 sh 1 + j)%nat k then 1 else 0)).
      assert (Ek : forall j, entry e j = if Nat.eqb j k then 1 else 0) by (intros j; apply entry_unit; exact N).
      assert (V : vdot n (gr x) e = entry (gr x) k).
      { unfold vdot. rewrite (Rsum_ext _ _ (fun j => if Nat.eqb j k then entry (gr x) j else 0)).
        - apply Rsum_delta. exact Hk.
        - intros j _. rewrite Ek. destruct (Nat.eqb j k); ring. }
      rewrite <- V. apply (slope_nonneg _ (1 / 2 * vdot n (hs e) e)). intros t Ht.
      assert (Sh : a_shape (scaled t e) = sh) by reflexivity.
      assert (L : f x <= f (arr_add x (scaled t e))).
      { apply Min; [exact Hx|]. intros j Hj. rewrite entry_add by (cbn; congruence).
        rewrite entry_scaled, Ek. specialize (X j Hj). destruct (Nat.eqb j k); lra. }
      rewrite (qd_expand _ _ _ _ _ Qd _ _ Hx Sh) in L.
      rewrite (vdot_scal_r n (gr x) (scaled t e) e t) in L by (intros; apply entry_scaled).
      rewrite (qd_scale _ _ _ _ _ Qd e t (scaled t e) Sh eq_refl) in L by (intros; apply entry_scaled).
      lra.
    - rewrite vdot_comm. apply Rle_antisym.
      + assert (0 <= - vdot n (gr x) x); [|lra].
        apply (slope_nonneg _ (1 / 2 * vdot n (hs x) x)). intros t Ht.
        assert (Sh : a_shape (scaled (- t) x) = sh) by exact Hx.
        assert (L : f x <= f (arr_add x (scaled (- t) x))).
        { apply Min; [exact Hx|]. intros j Hj. rewrite entry_add by reflexivity.
          rewrite entry_scaled. specialize (X j Hj). nra. }
        rewrite (qd_expand _ _ _ _ _ Qd _ _ Hx Sh) in L.
        rewrite (vdot_scal_r n (gr x) (scaled (- t) x) x (- t)) in L by (intros; apply entry_scaled).
        rewrite (qd_scale _ _ _ _ _ Qd x (- t) (scaled (- t) x) Sh Hx) in L by (intros; apply entry_scaled).
        nra.
      + apply (slope_nonneg _ (1 / 2 * vdot n (hs x) x)). intros t Ht.
        assert (Sh : a_shape (scaled t x) = sh) by exact Hx.
        assert (L : f x <= f (arr_add x (scaled t x))).
        { apply Min; [exact Hx|]. intros j Hj. rewrite entry_add by reflexivity.
          rewrite entry_scaled. specialize (X j Hj). nra. }
        rewrite (qd_expand _ _ _ _ _ Qd _ _ Hx Sh) in L.
        rewrite (vdot_scal_r n (gr x) (scaled t x) x t) in L by (intros; apply entry_scaled).
        rewrite (qd_scale _ _ _ _ _ Qd x t (scaled t x) Sh Hx) in L by (intros; apply entry_scaled).
        lra.
  Qed.
End KKT.

(** ** The periodic half-space *)
Section Periodic.
  Variables (a : args) (s : sub).
  Hypothesis H : construct a = Ret s.
  Let g := a_grid a.

  Lemma per_grid : okgrid g.
  Proof.
    split; [|exact (gx_pos a s H)].
    unfold construct, construct_on in H. destruct (new a) as [h|e] eqn:E; [|discriminate].
    destruct (proj1 (new_ok_iff a) (ex_intro _ h E)) as [D _]. exact D.
  Qed.
  Lemma per_shapes : sb_topo (periodic s) = g /\ sb_sub (periodic s) = g /\ sb_grid (periodic s) = g.
  Proof.
    cbn. pose proof H as H'. unfold construct, construct_on in H'.
    destruct (new a) as [h|e] eqn:E; [|discriminate].
    cbn [bind] in H'. destruct (compute_greens_function h _ _) as [gf|e]; [|discriminate].
    cbn [bind] in H'. injection H' as <-. cbn [s_hs].
    destruct (zero_thick_q0 _ _ E) as [_ [_ [_ [Eg _]]]]. repeat split; exact Eg.
  Qed.
  Lemma per_disp : symop g (sb_disp (periodic s)) (val_of (evaluate_disp s) g).
  Proof. exact (multiplier_symop _ _ _ _ (disp_multiplier a s H)). Qed.
  Lemma per_force : symop g (sb_force (periodic s)) (val_of (evaluate_force s) g).
  Proof. exact (multiplier_symop _ _ _ _ (force_multiplier a s H)). Qed.
  Lemma per_quad : quadop g (periodic s) (val_of (evaluate_force s) g).
  Proof.
    assert (X : forall u, exists v, evaluate s (mkArr g u) true true
      = Ret (Some (- (1 / 2) * inner g u (val_of (evaluate_force s) g u)), Some (mkArr g v))
      /\ same_on g v (val_of (evaluate_force s) g u)).
    { intros u. destruct (so_ret _ _ _ per_force u) as (v & V1 & V2). cbn [periodic sb_force] in V1.
      exists v. split; [|exact V2]. unfold evaluate. rewrite V1. cbn [bind a_val].
      do 3 f_equal. unfold evaluate_elastic_energy, inner, total.
      rewrite (nx_gx a s H), (ny_gy a s H).
      rewrite (Rsum2_ext _ _ (fun x y => u x y * - v x y)
        (fun x y => (-1) * (u x y * val_of (evaluate_force s) g u x y))).
      - rewrite Rsum2_scal. unfold g. lra.
      - intros x y Hx Hy. rewrite V2 by (split; assumption). ring. }
    constructor.
    - exact X.
    - intros u. destruct (X u) as (v & V1 & _).
      destruct (C24_energies_agree a s u H) as (E & f & E1 & E2 & _).
      cbn [periodic sb_eval]. fold g in E1, E2. rewrite V1 in E1. injection E1 as E1 _. rewrite E2, <- E1. reflexivity.
  Qed.
End Periodic.

(** ** The objectives as quadratic functions *)
Lemma unflat_ext : forall g a b, okgrid g -> same_entries (points g) a b ->
  same_on g (unflat g a) (unflat g b).
Proof.
  intros g a b G H x y [Hx Hy]. apply H. rewrite (npts_grid g G). apply index_lt; assumption.
Qed.
Lemma unflat_scal : forall g a b t, okgrid g -> (forall k, (k < points g)%nat -> entry a k = t * entry b k) ->
  same_on g (unflat g a) (fun x y => t * unflat g b x y).
Proof.
  intros g a b t G H x y [Hx Hy]. apply H. rewrite (npts_grid g G). apply index_lt; assumption.
Qed.

Lemma inner_opp_l : forall g f k, inner g (fun x y => - f x y) k = - inner g f k.
Proof.
  intros. rewrite (inner_ext g _ (fun x y => (-1) * f x y + 0 * f x y) k k)
    by (intros ? ? _; ring). rewrite inner_lin. ring.
Qed.
Lemma inner_scal_l : forall g t f k, inner g (fun x y => t * f x y) k = t * inner g f k.
Proof.
  intros. rewrite (inner_ext g _ (fun x y => t * f x y + 0 * f x y) k k)
    by (intros ? ? _; ring). rewrite inner_lin. ring.
Qed.

Lemma same_entries_refl : forall n a, same_entries n a a.
Proof. intros n a k _. reflexivity. Qed.

Lemma so_quad_scal : forall g ev L, symop g ev L -> forall f f' t,
  same_on g f (fun x y => t * f' x y) -> inner g f (L f) = t ^ 2 * inner g f' (L f').
Proof.
  intros g ev L S f f' t H.
  assert (E : same_on g (L f) (fun x y => t * L f' x y)).
  { intros x y Hg.
    rewrite (so_ext _ _ _ S f (fun x y => t * f' x y + 0 * f' x y)) by
      (try exact Hg; intros i j Hij; rewrite H by exact Hij; ring).
    rewrite (so_lin _ _ _ S) by exact Hg. ring. }
  rewrite (inner_ext g _ _ _ _ H E), inner_scal_l, inner_comm, inner_scal_l, inner_comm. ring.
Qed.

Section Quadratics.
  Variables (g : list nat) (ev : arr -> res arr) (L : field -> field) (h : field) (off : R).
  Hypothesis G : okgrid g.
  Hypothesis S : symop g ev L.

  Definition f_primal (x : arr) : R :=
    let u := fun i j => unflat g x i j + h i j + off in - (1 / 2) * inner g u (L u).
  Definition g_primal (x : arr) : arr :=
    mkArr g (fun i j => - L (fun i j => unflat g x i j + h i j + off) i j).
  Definition h_op (d : arr) : arr := mkArr g (fun i j => - L (unflat g d) i j).
  Definition f_dual (x : arr) : R :=
    - (1 / 2) * inner g (unflat g x) (L (unflat g x)) - inner g (unflat g x) (fun x y => h x y + off).
  Definition g_dual (x : arr) : arr := mkArr g (fun i j => - L (unflat g x) i j - h i j - off).

  Lemma h_op_scale : forall x t d, (forall k, (k < points g)%nat -> entry d k = t * entry x k) ->
    vdot (points g) (h_op d) d = t ^ 2 * vdot (points g) (h_op x) x.
  Proof.
    intros x t d K. unfold h_op.
    rewrite !(vdot_field g _ _ _ G (same_entries_refl _ _)), !inner_opp_l.
    rewrite (inner_comm g (L (unflat g d))), (inner_comm g (L (unflat g x))).
    rewrite (so_quad_scal g ev L S _ _ t (unflat_scal g d x t G K)). ring.
  Qed.

  Lemma primal_quadratic : forall sh, quadratic sh (points g) f_primal g_primal h_op.
  Proof.
    intros sh. constructor.
    - intros x d Hx Hd. unfold f_primal, g_primal, h_op.
      rewrite !(vdot_field g _ _ _ G (same_entries_refl _ _)), !inner_opp_l.
      set (u := fun i j => unflat g x i j + h i j + off). set (q := unflat g d).
      assert (X : same_on g (fun i j => unflat g (arr_add x d) i j + h i j + off) (fun i j => u i j + q i j)).
      { intros i j _. unfold u, q. rewrite unflat_add by congruence. ring. }
      rewrite (inner_ext g _ _ _ _ X (so_ext _ _ _ S _ _ X)), (quad_add _ _ _ S).
      rewrite (inner_comm g (L u)), (inner_comm g (L q)). lra.
    - intros x x' _ _ E. unfold f_primal.
      assert (X : same_on g (fun i j => unflat g x i j + h i j + off) (fun i j => unflat g x' i j + h i j + off)).
      { intros i j Hij. rewrite (unflat_ext g x x' G E) by exact Hij. reflexivity. }
      rewrite (inner_ext g _ _ _ _ X (so_ext _ _ _ S _ _ X)). reflexivity.
    - intros x t d _ _ K. exact (h_op_scale x t d K).
  Qed.

  Lemma dual_quadratic : forall sh, quadratic sh (points g) f_dual g_dual h_op.
  Proof.
    intros sh. constructor.
    - intros x d Hx Hd. unfold f_dual, g_dual, h_op.
      rewrite !(vdot_field g _ _ _ G (same_entries_refl _ _)), !inner_opp_l.
      set (p := unflat g x). set (q := unflat g d).
      assert (X : same_on g (unflat g (arr_add x d)) (fun i j => p i j + q i j)).
      { intros i j _. apply unflat_add. congruence. }
      rewrite (inner_ext g _ _ _ _ X (so_ext _ _ _ S _ _ X)), (quad_add _ _ _ S).
      rewrite (inner_ext g (unflat g (arr_add x d)) (fun i j => 1 * p i j + 1 * q i j)
        (fun x y => h x y + off) (fun x y => h x y + off))
        by (intros i j Hij; try rewrite X by exact Hij; ring).
      rewrite inner_lin.
      rewrite (inner_ext g (fun x y => - L p x y - h x y - off)
         (fun x y => (-1) * L p x y + (-1) * (h x y + off)) q q) by (intros ? ? _; ring).
      rewrite inner_lin. rewrite (inner_comm g (L p) q), (inner_comm g (L q) q), (inner_comm g _ q). lra.
    - intros x x' _ _ E. unfold f_dual. pose proof (unflat_ext g x x' G E) as X.
      rewrite (inner_ext g _ _ _ _ X (so_ext _ _ _ S _ _ X)).
      rewrite (inner_ext g _ _ _ (fun x y => h x y + off) X) by (intros ? ? _; reflexivity). reflexivity.
    - intros x t d _ _ K. exact (h_op_scale x t d K).
  Qed.

  Lemma h_op_psd : (forall f, inner g f (L f) <= 0) -> forall d, 0 <= vdot (points g) (h_op d) d.
  Proof.
    intros N d. unfold h_op. rewrite (vdot_field g _ _ _ G (same_entries_refl _ _)), inner_opp_l, inner_comm.
    specialize (N (unflat g d)). lra.
  Qed.
End Quadratics.

Lemma complementary_ext : forall n x g g', same_entries n g g' -> complementary n x g -> complementary n x g'.
Proof.
  intros n x g g' H (A & B & C). split; [exact A|]. split.
  - intros k Hk. rewrite <- H by exact Hk. apply B. exact Hk.
  - rewrite <- C. unfold vdot. apply Rsum_ext. intros k Hk. rewrite H by exact Hk. reflexivity.
Qed.

Lemma same_entries_sym : forall n a b, same_entries n a b -> same_entries n b a.
Proof. intros n a b H k Hk. symmetry. apply H. exact Hk. Qed.

(** ** Definiteness of the periodic half-space *)
Lemma per_force_nonpos : forall a s, construct a = Ret s -> pos_args a ->
  forall u, inner (a_grid a) u (val_of (evaluate_force s) (a_grid a) u) <= 0.
Proof.
  intros a s H Hp u. pose proof (energy_nonneg a s u H Hp) as E.
  destruct (qo_eval _ _ _ (per_quad a s H) u) as (v & V1 & _).
  destruct (evaluate_energy_of a s u H) as (f & F1 & _).
  cbn [periodic sb_eval] in V1. rewrite V1 in F1. injection F1 as F1 _. lra.
Qed.

Lemma per_disp_nonpos : forall a s, construct a = Ret s -> pos_args a ->
  forall f, inner (a_grid a) f (val_of (evaluate_disp s) (a_grid a) f) <= 0.
Proof.
  intros a s H Hp f. destruct (gx_pos a s H) as [P1 P2].
  destruct (disp_multiplier a s H) as (_ & _ & HH & _ & E).
  destruct (E (mkArr (a_grid a) f) eq_refl) as (u & U1 & _ & U2). cbn [a_val] in U2.
  destruct (construct_inv a s H) as [Hn _]. pose proof (area_pos _ _ Hn Hp) as A.
  unfold val_of. rewrite U1.
  rewrite (inner_ext _ f f _ (fun x y => - / area_per_pt (s_hs s) *
    mult (gx (a_grid a)) (gy (a_grid a)) (GF s) f x y)) by (try (intros ? ? _; reflexivity); exact U2).
  rewrite inner_comm, inner_scal_l, inner_comm.
  assert (D : 0 <= inner (a_grid a) f (mult (gx (a_grid a)) (gy (a_grid a)) (GF s) f)).
  { pose proof (FFT_Base.npts_pos _ _ P1 P2) as N.
    apply (Rmult_le_reg_l (npts (gx (a_grid a)) (gy (a_grid a)))); [exact N|]. rewrite Rmult_0_r.
    change (inner (a_grid a) f (mult (gx (a_grid a)) (gy (a_grid a)) (GF s) f)) with
      (dot (gx (a_grid a)) (gy (a_grid a)) f (mult (gx (a_grid a)) (gy (a_grid a)) (GF s) f)).
    rewrite (dot_mult (gx (a_grid a)) (gy (a_grid a))) by assumption.
    apply Rsum2_nonneg. intros k l Hk Hl. apply Rmult_le_pos; [|apply pow2_ge_0].
    unfold GF. cbn [Complex.Re Complex.RtoC fst].
    rewrite <- (nx_gx a s H) in Hk. rewrite <- (ny_gy a s H) in Hl.
    rewrite (gf_val a s H Hp) by assumption.
    destruct (zeroed (s_hs s) k l); [lra|].
    apply Rlt_le. pose proof (sigma_pos a s H Hp k l Hk Hl).
    apply Rdiv_lt_0_compat; lra. }
  pose proof (Rinv_0_lt_compat _ A). nra.
Qed.
