(** * Lemmas about the contact systems *)
From Coq Require Import Reals ZArith Lia Lra List Arith Bool.
From Verif Require Import Py FFT_Base HalfSpace_Model HalfSpace_Spec HalfSpace_Proofs
  HalfSpace_Results HalfSpace_Results2 Free_Model Free_Spec Free_Proofs Systems_Model Systems_Spec.
Import ListNotations.
Local Open Scope R_scope.

(** ** Flattening *)
Lemma size_npts : forall g, size g = points g.
Proof. reflexivity. Qed.
Lemma flat_entry : forall a k, flat a k = entry a k.
Proof. reflexivity. Qed.


Lemma npts_grid : forall g, okgrid g -> points g = (gx g * gy g)%nat.
Proof.
  intros g [[L|L] _]; destruct g as [|n [|m [|? ?]]]; try discriminate; unfold points, gx, gy; simpl; lia.
Qed.

Lemma Rsum_flat : forall n m (F : field), (0 < m)%nat ->
  Rsum (n * m) (fun k => F (k / m)%nat (k mod m)%nat) = Rsum2 n m F.
Proof.
  intros n m F Hm. unfold Rsum2. induction n as [|n IH]; [reflexivity|].
  replace (S n * m)%nat with (n * m + m)%nat by lia. rewrite Rsum_split, IH. cbn [Rsum]. f_equal.
  apply Rsum_ext. intros j Hj.
  rewrite (Nat.add_comm (n * m)), Nat.div_add, Nat.mod_add by lia.
  rewrite Nat.div_small, Nat.mod_small by lia. reflexivity.
Qed.

Lemma index_lt : forall n m x y, (x < n)%nat -> (y < m)%nat -> (x * m + y < n * m)%nat.
Proof. intros. nia. Qed.

(** Rows and columns of a flat vector. *)
Definition unflat (g : list nat) (a : arr) : field := fun x y => entry a (x * gy g + y)%nat.

Lemma entry_grid : forall g f x y, (y < gy g)%nat -> entry (mkArr g f) (x * gy g + y) = f x y.
Proof.
  intros g f x y H. unfold entry. cbn [a_shape a_val]. fold (gy g).
  rewrite (Nat.add_comm _ y), Nat.div_add, Nat.mod_add, Nat.div_small, Nat.mod_small by lia. reflexivity.
Qed.

Lemma entry_unflat : forall g a k, okgrid g -> entry (mkArr g (unflat g a)) k = entry a k.
Proof.
  intros g a k (_ & _ & H). unfold unflat. unfold entry at 1. cbn [a_shape a_val]. fold (gy g).
  f_equal. pose proof (Nat.div_mod k (gy g)). nia.
Qed.

Lemma entry_ext : forall g f f' k, okgrid g -> same_on g f f' -> (k < points g)%nat ->
  entry (mkArr g f) k = entry (mkArr g f') k.
Proof.
  intros g f f' k O S H. rewrite (npts_grid g O) in H. destruct O as (_ & Hx & Hy).
  unfold entry. cbn [a_shape a_val]. fold (gy g). apply S. split.
  - apply Nat.div_lt_upper_bound; lia.
  - apply Nat.mod_upper_bound. lia.
Qed.

Lemma entry_map : forall op a k, entry (amap op a) k = op (entry a k).
Proof. reflexivity. Qed.
Lemma entry_ravel : forall a k, entry (ravel a) k = entry a k.
Proof.
  intros. unfold entry at 1. cbn [ravel a_shape a_val nth]. rewrite Nat.div_1_r. reflexivity.
Qed.

Lemma vdot_inner : forall g a b, okgrid g ->
  vdot (points g) a b = inner g (unflat g a) (unflat g b).
Proof.
  intros g a b O. rewrite (npts_grid g O). destruct O as (L & Hx & Hy).
  unfold vdot, inner, total. rewrite <- Rsum_flat by exact Hy. apply Rsum_ext. intros k Hk.
  unfold unflat.
  replace (k / gy g * gy g + k mod gy g)%nat with k by (pose proof (Nat.div_mod k (gy g)); nia).
  reflexivity.
Qed.

Lemma asum_grid : forall g f, okgrid g -> asum (mkArr g f) = total g f.
Proof.
  intros g f O. unfold asum. cbn [a_shape]. rewrite size_npts, (npts_grid g O).
  destruct O as (L & Hx & Hy). unfold total. rewrite <- Rsum_flat by exact Hy. reflexivity.
Qed.

Lemma inner_unflat_l : forall g f b, okgrid g -> inner g (unflat g (mkArr g f)) b = inner g f b.
Proof.
  intros g f b O. unfold inner, total. apply Rsum2_ext. intros x y Hx Hy.
  unfold unflat. rewrite entry_grid by exact Hy. reflexivity.
Qed.

Lemma reshape_ok : forall a g, size (a_shape a) = points g ->
  reshape a g = Ret (mkArr g (unflat g a)).
Proof.
  intros a g H. unfold reshape. change (size g) with (points g). rewrite H, Nat.eqb_refl. reflexivity.
Qed.
Lemma reshape_bad : forall a g, size (a_shape a) <> points g -> reshape a g = Exc ValueErr.
Proof.
  intros a g H. unfold reshape. change (size g) with (points g).
  destruct (Nat.eqb_spec (size (a_shape a)) (points g)); [contradiction|reflexivity].
Qed.

Lemma bext_refl : forall n, bext n n = Some n.
Proof. intros. unfold bext. rewrite Nat.eqb_refl. reflexivity. Qed.

Lemma bidx_lt : forall n i, (i < n)%nat -> bidx n i = i.
Proof. intros n i H. unfold bidx. destruct (Nat.eqb_spec n 1); lia. Qed.

(** Same shapes: elementwise. *)
Lemma binop_same : forall op g f f', okgrid g ->
  exists v, binop op (mkArr g f) (mkArr g f') = Ret (mkArr g v)
    /\ same_on g v (fun x y => op (f x y) (f' x y)).
Proof.
  intros op g f f' ([L|L] & Hx & Hy).
  - destruct g as [|n [|? ?]]; try discriminate. unfold binop. cbn [a_shape a_val].
    rewrite bext_refl. eexists. split; [reflexivity|].
    intros x y [H1 H2]. unfold gx in *. cbn [nth] in *. rewrite bidx_lt by exact H1. reflexivity.
  - destruct g as [|n [|m [|? ?]]]; try discriminate. unfold binop. cbn [a_shape a_val].
    rewrite !bext_refl. eexists. split; [reflexivity|].
    intros x y [H1 H2]. unfold gx, gy in *. cbn [nth] in *. rewrite !bidx_lt by assumption. reflexivity.
Qed.

(** ** Linear self-adjoint substrates *)
Record symop (g : list nat) (ev : arr -> res arr) (L : field -> field) : Prop := mkSym {
  so_ret : forall f, exists v, ev (mkArr g f) = Ret (mkArr g v) /\ same_on g v (L f);
  so_lin : forall al be f f', same_on g (L (fun x y => al * f x y + be * f' x y))
             (fun x y => al * L f x y + be * L f' x y);
  so_sym : forall f f', inner g f (L f') = inner g f' (L f) }.

Definition val_of (ev : arr -> res arr) (g : list nat) (f : field) : field :=
  match ev (mkArr g f) with Ret u => a_val u | Exc _ => fun _ _ => 0 end.

Lemma inner_ext : forall g f f' k k', same_on g f f' -> same_on g k k' -> inner g f k = inner g f' k'.
Proof.
  intros g f f' k k' H H'. unfold inner, total. apply Rsum2_ext. intros x y Hx Hy.
  rewrite H, H' by (split; assumption). reflexivity.
Qed.
Lemma inner_comm : forall g f f', inner g f f' = inner g f' f.
Proof. intros. unfold inner, total. apply Rsum2_ext. intros. ring. Qed.
Lemma inner_lin : forall g al be f f' k,
  inner g (fun x y => al * f x y + be * f' x y) k = al * inner g f k + be * inner g f' k.
Proof.
  intros. unfold inner, total. rewrite <- !Rsum2_scal, <- Rsum2_plus.
  apply Rsum2_ext. intros. ring.
Qed.

Definition delta (x0 y0 : nat) : field := fun x y =>
  if Nat.eqb x x0 then if Nat.eqb y y0 then 1 else 0 else 0.
Lemma inner_delta : forall g x0 y0 v, on_grid g x0 y0 -> inner g (delta x0 y0) v = v x0 y0.
Proof.
  intros g x0 y0 v [Hx Hy]. unfold inner, total, Rsum2, delta.
  rewrite (Rsum_ext _ _ (fun i => if Nat.eqb i x0 then v x0 y0 else 0)).
  - apply (Rsum_delta (gx g) x0 (fun _ => v x0 y0)). exact Hx.
  - intros i Hi. destruct (Nat.eqb_spec i x0) as [E|E].
    + subst i. rewrite (Rsum_ext _ _ (fun j => if Nat.eqb j y0 then v x0 y0 else 0)).
      * apply (Rsum_delta (gy g) y0 (fun _ => v x0 y0)). exact Hy.
      * intros j Hj. destruct (Nat.eqb_spec j y0); [subst j|]; rewrite ?Nat.eqb_refl; lra.
    + transitivity (Rsum (gy g) (fun _ => 0)); [|apply Rsum_0]. apply Rsum_ext. intros. ring.
Qed.

Section Sym.
  Variables (g : list nat) (ev : arr -> res arr) (L : field -> field).
  Hypothesis S : symop g ev L.

  Lemma so_ext : forall f f', same_on g f f' -> same_on g (L f) (L f').
  Proof.
    intros f f' H x y Hg. rewrite <- (inner_delta g x y (L f) Hg), <- (inner_delta g x y (L f') Hg).
    rewrite (so_sym _ _ _ S (delta x y) f), (so_sym _ _ _ S (delta x y) f').
    apply inner_ext; [exact H|intros ? ? _; reflexivity].
  Qed.

  Lemma so_opp : forall f, same_on g (L (fun x y => - f x y)) (fun x y => - L f x y).
  Proof.
    intros f x y Hg.
    rewrite (so_ext _ (fun x y => (-1) * f x y + 0 * f x y)) by (try exact Hg; intros ? ? _; ring).
    rewrite (so_lin _ _ _ S) by exact Hg. ring.
  Qed.

  Lemma so_add : forall f f', same_on g (L (fun x y => f x y + f' x y)) (fun x y => L f x y + L f' x y).
  Proof.
    intros f f' x y Hg.
    rewrite (so_ext _ (fun x y => 1 * f x y + 1 * f' x y)) by (try exact Hg; intros ? ? _; ring).
    rewrite (so_lin _ _ _ S) by exact Hg. ring.
  Qed.

  (** Quadratic form. *)
  Lemma quad_add : forall f d,
    inner g (fun x y => f x y + d x y) (L (fun x y => f x y + d x y))
    = inner g f (L f) + 2 * inner g d (L f) + inner g d (L d).
  Proof.
    intros f d.
    rewrite (inner_ext g _ (fun x y => 1 * f x y + 1 * d x y) _
               (fun x y => 1 * L f x y + 1 * L d x y)).
    - rewrite inner_lin.
      rewrite (inner_comm g f), (inner_comm g d), !inner_lin.
      rewrite (inner_comm g (L f) f), (inner_comm g (L d) f), (inner_comm g (L f) d), (inner_comm g (L d) d).
      rewrite (so_sym _ _ _ S f d). ring.
    - intros ? ? _. ring.
    - intros x y Hg. rewrite so_add by exact Hg. ring.
  Qed.
End Sym.

Lemma multiplier_symop : forall g ev c G, multiplier g ev c G -> symop g ev (val_of ev g).
Proof.
  intros g ev c G H. pose proof H as (Hx & Hy & HG & HR & HE).
  assert (T : forall f, exists u, ev (mkArr g f) = Ret u /\ a_shape u = g).
  { intros f. destruct (HE (mkArr g f) eq_refl) as (u & H1 & H2 & _). eauto. }
  constructor.
  - intros f. destruct (T f) as (u & H1 & H2). exists (a_val u). split.
    + rewrite H1. f_equal. destruct u; cbn in *; congruence.
    + intros x y _. unfold val_of. rewrite H1. reflexivity.
  - intros al be f f'. destruct (multiplier_linear _ _ _ _ H al be f f') as (u & u' & v & H1 & H2 & H3 & H4).
    unfold val_of. rewrite H1, H2, H3. exact H4.
  - intros f f'. destruct (multiplier_selfadjoint _ _ _ _ H f f') as (u & u' & H1 & H2 & H3).
    unfold val_of. rewrite H1, H2. exact H3.
Qed.

Lemma direct_symop : forall s g per K, direct_sub s g per K ->
  (forall i j, K (- i)%Z j = K i j /\ K i (- j)%Z = K i j) ->
  symop g (fun f => free_disp s f false)
    (fun f x y => - / area_per_pt (f_hs s) * direct K g per f x y).
Proof.
  intros s g per K D HK. constructor.
  - intros f. destruct (free_disp_direct s g per K D f false) as (u & H1 & H2 & H3).
    exists (a_val u). split; [|exact H3]. rewrite H1. f_equal. destruct u; cbn in *; congruence.
  - intros al be f f' x y _. unfold direct.
    replace (Rsum2 _ _ (fun x' y' => _ * (al * f x' y' + be * f' x' y'))) with
      (al * direct K g per f x y + be * direct K g per f' x y).
    + unfold direct. ring.
    + unfold direct. rewrite <- !Rsum2_scal, <- Rsum2_plus. apply Rsum2_ext. intros. ring.
  - intros f f'.
    assert (X : forall h h', inner g h (fun x y => - / area_per_pt (f_hs s) * direct K g per h' x y)
      = - / area_per_pt (f_hs s) * inner g h (direct K g per h')).
    { intros h h'. unfold inner, total. rewrite <- Rsum2_scal. apply Rsum2_ext. intros. ring. }
    rewrite !X. f_equal. apply direct_adjoint. exact HK.
Qed.

(** ** Dual objective *)
Section Dual.
  Variables (sb : substrate) (sf : surface) (g : list nat) (L : field -> field).
  Hypothesis G : okgrid g.
  Hypothesis T : sb_topo sb = g.
  Hypothesis F : sf_grid sf = g.
  Hypothesis S : symop g (sb_disp sb) L.

  Let h : field := a_val (heights sf).

  Lemma heights_eq : heights sf = mkArr g h.
  Proof. unfold h, heights. rewrite F. reflexivity. Qed.

  (** Value and gradient in closed form. *)
  Lemma dual_value : forall off p y, size (a_shape p) = points g ->
    exists E gr y', dual_objective sb sf off true p y = (y', Ret (Some E, Some gr))
      /\ E = - (1 / 2) * inner g (unflat g p) (L (unflat g p))
             - inner g (unflat g p) (fun x y => h x y + off)
      /\ a_shape gr = [points g]
      /\ same_entries (points g) gr (mkArr g (fun x y => - L (unflat g p) x y - h x y - off))
      /\ y_energy y' = Some E.
  Proof.
    intros off p y Hp. unfold dual_objective. rewrite T, (reshape_ok p g Hp).
    unfold mbind at 1, lift at 1. set (q := unflat g p).
    unfold evaluate_dual, amap at 1. cbn [a_shape a_val].
    destruct (so_ret _ _ _ S (fun x y => - q x y)) as (u & U1 & U2).
    unfold mbind, lift. rewrite U1.
    rewrite heights_eq.
    destruct (binop_same Rminus g u h G) as (d & D1 & D2). rewrite D1. cbn [bind].
    unfold upd.
    destruct (binop_same Rmult g q u G) as (fu & E1 & E2). rewrite E1. cbn [bind].
    change (amap (fun z : R => z + off) (mkArr g h)) with (mkArr g (fun x y => h x y + off)).
    destruct (binop_same Rmult g q (fun x y => h x y + off) G) as (fh & E3 & E4). rewrite E3. cbn [bind].
    cbn [mret fst snd].
    assert (U3 : same_on g u (fun x y => - L q x y)).
    { intros x y0 Hg. rewrite U2 by exact Hg. apply (so_opp _ _ _ S). exact Hg. }
    do 3 eexists. split; [reflexivity|]. split; [|split; [|split]].
    - rewrite !asum_grid by exact G. unfold inner, total.
      rewrite (Rsum2_ext _ _ fu (fun x y => (-1) * (q x y * L q x y))).
      2:{ intros x y0 Hx Hy. rewrite E2, U3 by (split; assumption). ring. }
      rewrite (Rsum2_ext _ _ fh (fun x y => q x y * (h x y + off))).
      2:{ intros x y0 Hx Hy. rewrite E4 by (split; assumption). reflexivity. }
      rewrite Rsum2_scal. lra.
    - reflexivity.
    - intros k Hk. rewrite entry_ravel. unfold amap. cbn [a_shape a_val].
      apply entry_ext; [exact G| |exact Hk].
      intros x y0 Hg. rewrite D2, U3 by exact Hg. ring.
    - reflexivity.
  Qed.

  Lemma dual_hessian : forall d, size (a_shape d) = points g ->
    exists hd, dual_hessian_product sb d = Ret hd /\ a_shape hd = a_shape d
      /\ same_entries (points g) hd (mkArr g (fun x y => - L (unflat g d) x y)).
  Proof.
    intros d Hd. unfold dual_hessian_product. rewrite T, (reshape_ok d g Hd). cbn [bind].
    unfold amap. cbn [a_shape a_val].
    destruct (so_ret _ _ _ S (fun x y => - unflat g d x y)) as (u & U1 & U2). rewrite U1. cbn [bind].
    unfold reshape. cbn [a_shape]. rewrite size_npts, Hd, Nat.eqb_refl.
    eexists. split; [reflexivity|]. split; [reflexivity|].
    intros k Hk. unfold entry at 1. cbn [a_shape a_val]. rewrite flat_entry.
    rewrite size_npts in Hd.
    assert (M0 : nth 1 (a_shape d) 1%nat <> 0%nat).
    { intros E. assert (points (a_shape d) = 0)%nat.
      { unfold points. destruct (a_shape d) as [|n [|m l]]; cbn in E; try discriminate. subst m. cbn. lia. }
      lia. }
    replace (k / nth 1 (a_shape d) 1 * nth 1 (a_shape d) 1 + k mod nth 1 (a_shape d) 1)%nat with k
      by (pose proof (Nat.div_mod k _ M0); nia).
    apply entry_ext; [exact G| |exact Hk].
    intros x y Hg. rewrite U2 by exact Hg. apply (so_opp _ _ _ S). exact Hg.
  Qed.
End Dual.

Lemma unflat_add : forall g x d, a_shape d = a_shape x ->
  forall i j, unflat g (arr_add x d) i j = unflat g x i j + unflat g d i j.
Proof. intros g x d H i j. unfold unflat, entry, arr_add. cbn [a_shape a_val]. rewrite H. reflexivity. Qed.

Lemma vdot_field : forall g b f d, okgrid g -> same_entries (points g) b (mkArr g f) ->
  vdot (points g) b d = inner g f (unflat g d).
Proof.
  intros g b f d G H. rewrite <- (inner_unflat_l g f _ G), <- vdot_inner by exact G.
  unfold vdot. apply Rsum_ext. intros k Hk. rewrite H by exact Hk. reflexivity.
Qed.

Lemma entry_mk : forall g f k, okgrid g -> entry (mkArr g f) k = f (k / gy g)%nat (k mod gy g)%nat.
Proof. reflexivity. Qed.
Lemma on_grid_k : forall g k, okgrid g -> (k < points g)%nat -> on_grid g (k / gy g) (k mod gy g).
Proof.
  intros g k O H. rewrite (npts_grid g O) in H. destruct O as (_ & Hx & Hy). split.
  - apply Nat.div_lt_upper_bound; lia.
  - apply Nat.mod_upper_bound. lia.
Qed.

(** Expansion of the dual objective. *)
Section DualExpand.
  Variables (sb : substrate) (sf : surface) (g : list nat) (L : field -> field).
  Hypothesis G : okgrid g.
  Hypothesis T : sb_topo sb = g.
  Hypothesis F : sf_grid sf = g.
  Hypothesis S : symop g (sb_disp sb) L.

  Lemma dual_expand : forall off x d y, size (a_shape x) = points g -> a_shape d = a_shape x ->
    exists E gr E' gr' hd y1 y2,
      dual_objective sb sf off true x y = (y1, Ret (Some E, Some gr))
      /\ dual_objective sb sf off true (arr_add x d) y = (y2, Ret (Some E', Some gr'))
      /\ dual_hessian_product sb d = Ret hd /\ a_shape hd = a_shape d
      /\ E' = E + vdot (points g) gr d + 1 / 2 * vdot (points g) hd d
      /\ (forall k, (k < points g)%nat -> entry gr' k = entry gr k + entry hd k).
  Proof.
    intros off x d y Hx Hd.
    destruct (dual_value sb sf g L G T F S off x y Hx) as (E & gr & y1 & A1 & A2 & _ & A4 & _).
    destruct (dual_value sb sf g L G T F S off (arr_add x d) y Hx) as (E' & gr' & y2 & B1 & B2 & _ & B4 & _).
    destruct (dual_hessian sb g L G T S d) as (hd & C1 & C2 & C3).
    { rewrite Hd. exact Hx. }
    exists E, gr, E', gr', hd, y1, y2. do 4 (split; [assumption|]). split.
    - rewrite (vdot_field g gr _ d G A4), (vdot_field g hd _ d G C3), A2, B2.
      set (p := unflat g x) in *. set (q := unflat g d) in *.
      set (h := a_val (heights sf)) in *.
      assert (X : same_on g (unflat g (arr_add x d)) (fun i j => p i j + q i j)).
      { intros i j _. apply unflat_add. exact Hd. }
      rewrite (inner_ext g _ _ _ _ X (so_ext _ _ _ S _ _ X)), (quad_add _ _ _ S).
      rewrite (inner_ext g _ _ _ (fun x y => h x y + off) X) by (intros ? ? _; reflexivity).
      rewrite (inner_ext g (fun i j => p i j + q i j) (fun i j => 1 * p i j + 1 * q i j)
         _ (fun x y => h x y + off)) by (intros ? ? _; ring).
      rewrite inner_lin.
      rewrite (inner_ext g (fun x y => - L p x y - h x y - off)
         (fun x y => (-1) * L p x y + (-1) * (h x y + off)) q q) by (intros ? ? _; ring).
      rewrite inner_lin.
      rewrite (inner_ext g (fun x y => - L q x y)
         (fun x y => (-1) * L q x y + 0 * L q x y) q q) by (intros ? ? _; ring).
      rewrite inner_lin. rewrite (inner_comm g (L p) q), (inner_comm g (L q) q), (inner_comm g _ q). lra.
    - intros k Hk. rewrite A4, B4, C3 by exact Hk. rewrite !entry_mk by exact G.
      pose proof (on_grid_k g k G Hk) as K.
      rewrite (so_ext _ _ _ S _ (fun i j => unflat g x i j + unflat g d i j)).
      + rewrite (so_add _ _ _ S) by exact K. ring.
      + intros i j _. apply unflat_add. exact Hd.
      + exact K.
  Qed.
End DualExpand.
