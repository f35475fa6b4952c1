(** * Free and semi-periodic half-spaces: direct summation *)

From Coq Require Import Reals ZArith Lia Lra List Arith Bool.
From Coquelicot Require Import Complex.
From Verif Require Import Py FFT_Base HalfSpace_Model HalfSpace_Spec HalfSpace_Proofs
  HalfSpace_Results HalfSpace_Results3 Free_Model Free_Spec Pixel.
Import ListNotations.
Local Open Scope R_scope.

(** ** Zero padding *)

Lemma Rsum_pad : forall n N g, (n <= N)%nat ->
  Rsum N (fun i => if Nat.ltb i n then g i else 0) = Rsum n g.
Proof.
  intros n N g H. replace N with (n + (N - n))%nat by lia. rewrite Rsum_split.
  rewrite (Rsum_ext n _ g).
  2:{ intros i Hi. destruct (Nat.ltb_spec i n); [reflexivity|lia]. }
  rewrite (Rsum_ext (N - n) _ (fun _ => 0)).
  2:{ intros i Hi. destruct (Nat.ltb_spec (n + i) n); [lia|reflexivity]. }
  rewrite Rsum_0. ring.
Qed.

Lemma Rsum2_pad : forall n m N M g, (n <= N)%nat -> (m <= M)%nat ->
  Rsum2 N M (fun i j => if andb (Nat.ltb i n) (Nat.ltb j m) then g i j else 0) = Rsum2 n m g.
Proof.
  intros n m N M g H1 H2. unfold Rsum2.
  rewrite <- (Rsum_pad n N) by exact H1. apply Rsum_ext. intros i _.
  destruct (Nat.ltb i n); cbn [andb].
  - apply (Rsum_pad m M (fun j => g i j) H2).
  - apply Rsum_0.
Qed.

(** ** Index arithmetic *)

Lemma cyc_index : forall N x x', (x < N)%nat -> (x' < N)%nat ->
  ((x + neg N x') mod N)%nat = if Nat.leb x' x then (x - x')%nat else (N + x - x')%nat.
Proof.
  intros N x x' Hx Hx'. unfold neg.
  destruct (Nat.eq_dec x' 0) as [Z|Z].
  - subst. rewrite Nat.sub_0_r, Nat.mod_same, Nat.add_0_r by lia. cbn [Nat.leb].
    rewrite Nat.mod_small by lia. lia.
  - rewrite (Nat.mod_small (N - x')) by lia. destruct (Nat.leb_spec x' x).
    + replace (x + (N - x'))%nat with ((x - x') + 1 * N)%nat by lia.
      rewrite Nat.mod_add by lia. apply Nat.mod_small. lia.
    + rewrite Nat.mod_small by lia. lia.
Qed.

Lemma IZR_offset : forall x x', IZR (offset x x') = INR x - INR x'.
Proof. intros. unfold offset. rewrite minus_IZR, <- !INR_IZR_INZ. reflexivity. Qed.

Lemma free_index : forall n x x', (x < n)%nat -> (x' < n)%nat ->
  free_coord n ((x + neg (2 * n) x') mod (2 * n)) = IZR (offset x x').
Proof.
  intros n x x' Hx Hx'. rewrite cyc_index by lia. rewrite IZR_offset. unfold free_coord.
  destruct (Nat.leb_spec x' x).
  - destruct (Nat.leb_spec (x - x') n); [|lia]. apply minus_INR. lia.
  - destruct (Nat.leb_spec (2 * n + x - x') n); [lia|].
    rewrite minus_INR by lia. rewrite plus_INR, mult_INR. simpl (INR 2). ring.
Qed.

Lemma fftindex_wrap : forall N i, (i < N)%nat -> fftindex N i = wrap N (Z.of_nat i).
Proof.
  intros N i H. unfold fftindex, wrap.
  pose proof (Nat.div_mod N 2 ltac:(lia)). pose proof (Nat.mod_upper_bound N 2 ltac:(lia)).
  pose proof (Nat.div_mod (N - 1) 2 ltac:(lia)). pose proof (Nat.mod_upper_bound (N - 1) 2 ltac:(lia)).
  assert (E : ((N - 1) / 2 = N - N / 2 - 1)%nat) by lia. rewrite E.
  destruct (Nat.leb_spec i (N - N / 2 - 1)).
  - rewrite Z.mod_small by lia. lia.
  - replace (Z.of_nat i + Z.of_nat (N / 2))%Z
      with (Z.of_nat i + Z.of_nat (N / 2) - Z.of_nat N + 1 * Z.of_nat N)%Z by lia.
    rewrite Z.mod_add by lia. rewrite Z.mod_small by lia. lia.
Qed.

Lemma wrap_cong : forall N d k, (0 < N)%nat -> wrap N (d + k * Z.of_nat N) = wrap N d.
Proof.
  intros N d k H. unfold wrap. f_equal.
  replace (d + k * Z.of_nat N + Z.of_nat (N / 2))%Z
    with (d + Z.of_nat (N / 2) + k * Z.of_nat N)%Z by ring.
  apply Z.mod_add. lia.
Qed.

Lemma wrap_small : forall N d, (0 < N)%nat ->
  (- Z.of_nat (N / 2) <= d < Z.of_nat N - Z.of_nat (N / 2))%Z -> wrap N d = d.
Proof. intros N d H Hd. unfold wrap. rewrite Z.mod_small by lia. lia. Qed.

Lemma cyc_offset : forall N x x', (x < N)%nat -> (x' < N)%nat ->
  fftindex N ((x + neg N x') mod N) = wrap N (offset x x').
Proof.
  intros N x x' Hx Hx'. rewrite fftindex_wrap by (apply Nat.mod_upper_bound; lia).
  rewrite cyc_index by assumption. unfold offset. destruct (Nat.leb_spec x' x).
  - f_equal. lia.
  - replace (Z.of_nat (N + x - x')) with (Z.of_nat x - Z.of_nat x' + 1 * Z.of_nat N)%Z by lia.
    apply wrap_cong. lia.
Qed.

Lemma semi_index : forall per n x x', (x < n)%nat -> (x' < n)%nat ->
  fftindex (semi_points per n) ((x + neg (semi_points per n) x') mod semi_points per n)
  = image_offset per n x x'.
Proof.
  intros per n x x' Hx Hx'. unfold semi_points, image_offset. destruct per.
  - apply cyc_offset; assumption.
  - rewrite cyc_offset by lia.
    pose proof (Nat.div_mod (n * 2 - 1) 2 ltac:(lia)).
    pose proof (Nat.mod_upper_bound (n * 2 - 1) 2 ltac:(lia)).
    apply wrap_small; [lia|]. unfold offset. lia.
Qed.

(** ** Construction *)

Lemma new_on_inv : forall dom a h, new_on dom a = Ret h ->
  (length (a_grid a) = 1%nat \/ length (a_grid a) = 2%nat)
  /\ (a_q0 a = None \/ a_thick a = None)
  /\ (forall n, In n (a_grid a) -> n <> 0%nat)
  /\ a_sizes a <> []
  /\ 1 - a_poisson a ^ 2 <> 0
  /\ (forall g, a_engine a = Some g -> g = dom)
  /\ exists h', new (mkArgs (a_grid a) (a_young a) (a_sizes a) (a_q0 a) (a_thick a)
                            (a_poisson a) None) = Ret h' /\ h = h'.
Proof.
  intros dom a h H.
  assert (N : new (mkArgs (a_grid a) (a_young a) (a_sizes a) (a_q0 a) (a_thick a)
                          (a_poisson a) None) = Ret h
              /\ forall g, a_engine a = Some g -> g = dom).
  { unfold new, new_on in *. cbn [a_grid a_young a_sizes a_q0 a_thick a_poisson a_engine].
    destruct (negb _); [discriminate|].
    destruct (match a_q0 a with Some _ => match a_thick a with Some _ => true | None => false end
             | None => false end); [discriminate|].
    destruct (extend_sizes _ _) as [l|]; [|discriminate]. cbn [bind] in *.
    destruct (compute_steps l (a_grid a)) as [st|]; [|discriminate]. cbn [bind] in *.
    destruct (Req_bool _ 0); [discriminate|].
    destruct (a_engine a) as [g|].
    - destruct (shape_eqb g dom) eqn:S; [|discriminate]. cbn [negb] in H.
      split; [exact H|]. intros g' E. injection E as E. subst g'.
      apply shape_eqb_spec. exact S.
    - split; [exact H|]. discriminate. }
  destruct N as [N E]. pose proof (new_inv _ _ N) as V. cbn in V.
  destruct V as [V1 [V2 [V3 [V4 [V5 [_ _]]]]]].
  repeat (split; [assumption|]). exists h. split; [exact N|reflexivity].
Qed.

Record good (a : fargs) (h : hs) : Prop := mkGood {
  g_grid : h_grid h = fa_grid a;
  g_dim : length (fa_grid a) = 1%nat \/ length (fa_grid a) = 2%nat;
  g_pos : (0 < gx (fa_grid a))%nat /\ (0 < gy (fa_grid a))%nat;
  g_young : h_young h = fa_young a;
  g_nx : nx h = gx (fa_grid a);
  g_ny : ny h = gy (fa_grid a);
  g_sz : length (fa_grid a) = 2%nat ->
    sx h = cell_size (fa_sizes a) 0 /\ sy h = cell_size (fa_sizes a) 1
    /\ dx h = spacing (fa_grid a) (fa_sizes a) 0 /\ dy h = spacing (fa_grid a) (fa_sizes a) 1
    /\ area_per_pt h = point_area (fa_grid a) (fa_sizes a);
  g_ne : fa_sizes a <> [] }.

Lemma new_good : forall dom a h, new_on dom (base_args a) = Ret h -> good a h.
Proof.
  intros dom a h H. apply new_on_inv in H.
  destruct H as (Hd & _ & Hz & Hs & _ & _ & h' & N & E). subst h'. cbn in *.
  destruct (zero_thick_q0 _ _ N) as [_ [_ [_ [Eg [_ [_ Ey]]]]]]. cbn in Eg, Ey.
  pose proof (new_sizes _ _ N) as [L1 [L2 SZ]]. cbn [a_grid a_sizes] in L1, L2, SZ.
  pose proof (grid_pos _ _ N) as [P1 P2].
  assert (G1 : nx h = gx (fa_grid a)) by (unfold nx, gx; rewrite Eg; reflexivity).
  assert (G2 : ny h = gy (fa_grid a)) by (unfold ny, gy; rewrite Eg; reflexivity).
  constructor; try assumption.
  - rewrite <- G1, <- G2. split; assumption.
  - intros L. rewrite L in *.
    destruct (SZ 0%nat ltac:(lia)) as [A1 A2]. destruct (SZ 1%nat ltac:(lia)) as [B1 B2].
    assert (SX : sx h = cell_size (fa_sizes a) 0).
    { unfold sx. rewrite <- A1. apply nth_indep. lia. }
    assert (SY : sy h = cell_size (fa_sizes a) 1).
    { unfold sy. rewrite <- B1. apply nth_indep. lia. }
    split; [exact SX|]. split; [exact SY|].
    assert (N0 : INR (nth 0 (fa_grid a) 1%nat) <> 0).
    { fold (gx (fa_grid a)). rewrite <- G1. apply not_0_INR. lia. }
    assert (N1 : INR (nth 1 (fa_grid a) 1%nat) <> 0).
    { fold (gy (fa_grid a)). rewrite <- G2. apply not_0_INR. lia. }
    rewrite (nth_indep (fa_grid a) 0%nat 1%nat) in A2 by lia.
    rewrite (nth_indep (fa_grid a) 0%nat 1%nat) in B2 by lia.
    split; [|split].
    + unfold dx, spacing. rewrite <- A2. field. exact N0.
    + unfold dy, spacing. rewrite <- B2. field. exact N1.
    + rewrite (area_eq _ _ N). unfold point_area, npts. rewrite L. cbn [Nat.eqb].
      rewrite SX, SY, G1, G2. reflexivity.
Qed.

(** ** Response as direct summation *)

Definition direct (K : Z -> Z -> R) (g : list nat) (per : bool * bool) (f : field) : field :=
  fun x y => Rsum2 (gx g) (gy g) (fun x' y' =>
    K (image_offset (fst per) (gx g) x x') (image_offset (snd per) (gy g) y y') * f x' y').

(** [s] computes, on the topography grid [g], the direct sum with kernel [K]
    divided by the pixel area. *)
Record direct_sub (s : fsub) (g : list nat) (per : bool * bool) (K : Z -> Z -> R) : Prop := mkDS {
  ds_grid : h_grid (f_hs s) = g;
  ds_len : length g = 2%nat /\ length (f_dom s) = 2%nat;
  ds_pos : (0 < gx g)%nat /\ (0 < gy g)%nat;
  ds_le : (gx g <= domx s)%nat /\ (gy g <= domy s)%nat;
  ds_gf : f_gf s = fft2 (domx s) (domy s) (f_real s);
  ds_ss : f_ss s = compute_surface_stiffness_c (f_gf s);
  ds_real : forall x y x' y', (x < gx g)%nat -> (y < gy g)%nat -> (x' < gx g)%nat -> (y' < gy g)%nat ->
    f_real s ((x + neg (domx s) x') mod domx s) ((y + neg (domy s) y') mod domy s)
    = K (image_offset (fst per) (gx g) x x') (image_offset (snd per) (gy g) y y') }.

Lemma base_disp_circ : forall s f x y, (0 < domx s)%nat -> (0 < domy s)%nat ->
  f_gf s = fft2 (domx s) (domy s) (f_real s) -> a_shape f = f_dom s ->
  (x < domx s)%nat -> (y < domy s)%nat ->
  exists u, base_disp s f = Ret u /\ a_shape u = f_dom s
    /\ a_val u x y = - (/ area_per_pt (f_hs s)) * circ (domx s) (domy s) (f_real s) (a_val f) x y.
Proof.
  intros s f x y P1 P2 G Hf Hx Hy. unfold base_disp. rewrite Hf, shape_eqb_refl. cbn [negb].
  eexists. split; [reflexivity|]. split; [reflexivity|]. cbn [a_val].
  rewrite <- (mult_circ (domx s) (domy s) P1 P2 (f_real s) (a_val f) x y Hx Hy).
  rewrite <- G. unfold mult, npts.
  rewrite (irfft2_ext (domx s) (domy s) _
    (fun k l => (f_gf s k l * fft2 (domx s) (domy s) (fun x y => -1 * a_val f x y)%R k l)%C)).
  2:{ intros k l Hk Hl. rewrite Cmult_comm. f_equal. apply fft2_ext. intros. ring. }
  assert (E : irfft2 (domx s) (domy s) (fun k l =>
       (f_gf s k l * fft2 (domx s) (domy s) (fun x y => -1 * a_val f x y)%R k l)%C) x y
     = -1 * irfft2 (domx s) (domy s) (fun k l =>
       (f_gf s k l * fft2 (domx s) (domy s) (a_val f) k l)%C) x y).
  { assert (H : Herm (domx s) (domy s) (f_gf s)) by (rewrite G; apply fft2_Herm; assumption).
    pose proof (mult_scal_r (domx s) (domy s) (f_gf s) (-1) (a_val f) x y P1 P2 H Hx Hy) as M.
    unfold mult in M. pose proof (npts_pos (domx s) (domy s) P1 P2) as NP.
    set (A := irfft2 _ _ _ _ _) in M |- *. set (B := irfft2 _ _ _ _ _) in M |- *.
    apply (Rmult_eq_reg_r (/ npts (domx s) (domy s))); [|apply Rinv_neq_0_compat; lra].
    unfold Rdiv in M. rewrite M. ring. }
  rewrite E. unfold Rdiv. ring.
Qed.

Lemma topo_shape_eq : forall s g per K, direct_sub s g per K -> topo_shape s = g.
Proof.
  intros s g per K [E1 [L1 L2] _ [E2 E3] _ _ _]. unfold topo_shape. rewrite E1.
  unfold domx, domy, gx, gy in *.
  destruct g as [|n [|m [|? ?]]]; try discriminate.
  destruct (f_dom s) as [|N [|M [|? ?]]]; try discriminate.
  cbn in *. rewrite !Nat.min_l by assumption. reflexivity.
Qed.

Lemma free_disp_direct : forall s g per K, direct_sub s g per K ->
  forall f pad, exists u, free_disp s (mkArr g f) pad = Ret u
    /\ a_shape u = (if pad then f_dom s else g)
    /\ same_on g (a_val u) (fun x y => - (/ area_per_pt (f_hs s)) * direct K g per f x y).
Proof.
  intros s g per K D f pad. pose proof (topo_shape_eq s g per K D) as T.
  destruct D as [E1 [L1 L2] [P1 P2] [E2 E3] G _ R].
  assert (Q1 : (0 < domx s)%nat) by lia. assert (Q2 : (0 < domy s)%nat) by lia.
  assert (GEN : forall F x y, on_grid g x y ->
    (forall x y, (x < domx s)%nat -> (y < domy s)%nat -> F x y = zero_pad g f x y) ->
    circ (domx s) (domy s) (f_real s) F x y = direct K g per f x y).
  { intros F x y [Hx Hy] HF. unfold circ, direct.
    rewrite <- (Rsum2_pad (gx g) (gy g) (domx s) (domy s)) by assumption.
    apply Rsum2_ext. intros x' y' Hx' Hy'. rewrite HF by assumption.
    unfold zero_pad. fold (gx g) (gy g).
    destruct (Nat.ltb_spec x' (gx g)); cbn [andb]; [|ring].
    destruct (Nat.ltb_spec y' (gy g)); [|ring].
    rewrite R by assumption. reflexivity. }
  unfold free_disp. rewrite T. cbn [a_shape a_val].
  destruct (shape_eqb g (f_dom s)) eqn:S.
  - apply shape_eqb_spec in S.
    unfold base_disp at 1. rewrite <- S. cbn [a_shape]. rewrite shape_eqb_refl. cbn [negb].
    eexists. split; [reflexivity|]. split; [destruct pad; reflexivity|].
    intros x y [Hx Hy].
    destruct (base_disp_circ s (mkArr g f) x y Q1 Q2 G S ltac:(lia) ltac:(lia)) as (u & U1 & _ & U2).
    unfold base_disp in U1. rewrite <- S in U1. cbn [a_shape] in U1. rewrite shape_eqb_refl in U1.
    cbn [negb] in U1. injection U1 as U1. rewrite <- U1 in U2. cbn [a_val] in U2 |- *.
    rewrite U2. f_equal. apply GEN; [split; assumption|].
    intros a b Ha Hb. unfold zero_pad. unfold domx, domy in Ha, Hb. rewrite <- S in Ha, Hb.
    destruct (Nat.ltb_spec a (nth 0 g 1%nat)); [|lia].
    destruct (Nat.ltb_spec b (nth 1 g 1%nat)); [|lia]. reflexivity.
  - rewrite shape_eqb_refl.
    assert (BD : exists u, base_disp s (mkArr (f_dom s) (zero_pad g f)) = Ret u
       /\ a_shape u = f_dom s
       /\ same_on g (a_val u) (fun x y => - (/ area_per_pt (f_hs s)) * direct K g per f x y)).
    { unfold base_disp. cbn [a_shape]. rewrite shape_eqb_refl. cbn [negb].
      eexists. split; [reflexivity|]. split; [reflexivity|].
      intros x y [Hx Hy].
      destruct (base_disp_circ s (mkArr (f_dom s) (zero_pad g f)) x y Q1 Q2 G eq_refl ltac:(lia) ltac:(lia))
        as (u & U1 & _ & U2).
      unfold base_disp in U1. cbn [a_shape] in U1. rewrite shape_eqb_refl in U1.
      cbn [negb] in U1. injection U1 as U1. rewrite <- U1 in U2. cbn [a_val] in U2 |- *.
      rewrite U2. f_equal. apply GEN; [split; assumption|]. reflexivity. }
    destruct BD as (u & B1 & B2 & B3). rewrite B1. destruct pad.
    + exists u. auto.
    + cbn [bind]. eexists. split; [reflexivity|]. split; [reflexivity|]. exact B3.
Qed.

Lemma love_pixel : forall E a b x y,
  x + a <> 0 -> x - a <> 0 -> y + b <> 0 -> y - b <> 0 ->
  pixel E a b x y = love E a b x y.
Proof. intros. rewrite pixel_prim by assumption. reflexivity. Qed.

Lemma influence_pixel : forall g E sizes i j,
  spacing g sizes 0 <> 0 -> spacing g sizes 1 <> 0 ->
  influence g E sizes i j
  = pixel E (spacing g sizes 0 * 0.5) (spacing g sizes 1 * 0.5)
            (IZR i * spacing g sizes 0) (IZR j * spacing g sizes 1).
Proof.
  intros g E sizes i j H0 H1. unfold influence.
  destruct (half_offset i _ H0), (half_offset j _ H1).
  rewrite love_pixel by assumption.
  replace (spacing g sizes 0 / 2) with (spacing g sizes 0 * 0.5) by lra.
  replace (spacing g sizes 1 / 2) with (spacing g sizes 1 * 0.5) by lra. reflexivity.
Qed.

Definition sizes_ok (a : fargs) : Prop :=
  cell_size (fa_sizes a) 0 <> 0 /\ cell_size (fa_sizes a) 1 <> 0.

Lemma spacing_neq : forall a i, cell_size (fa_sizes a) i <> 0 ->
  (0 < nth i (fa_grid a) 1)%nat -> spacing (fa_grid a) (fa_sizes a) i <> 0.
Proof.
  intros a i H Hn. unfold spacing. apply Rmult_integral_contrapositive_currified; [exact H|].
  apply Rinv_neq_0_compat. apply not_0_INR. lia.
Qed.

Lemma free_inv : forall a s, free_construct a = Ret s ->
  length (fa_grid a) = 2%nat /\ good a (f_hs s)
  /\ f_dom s = map (fun r => (2 * r)%nat) (fa_grid a)
  /\ f_check s = fa_check a.
Proof.
  intros a s H. unfold free_construct in H.
  destruct (new_on _ (base_args a)) as [h|e] eqn:N; [|discriminate]. cbn [bind] in H.
  destruct (Nat.eqb_spec (dim h) 1) as [D|D]; [discriminate|]. injection H as H. subst s.
  cbn [f_hs f_dom f_check]. pose proof (new_good _ _ _ N) as G.
  split; [|split; [exact G|split; reflexivity]].
  destruct G as [G1 [G2|G2] _ _ _ _ _ _]; [|exact G2].
  exfalso. apply D. unfold dim. rewrite G1. exact G2.
Qed.

Lemma free_direct : forall a s, free_construct a = Ret s -> sizes_ok a ->
  direct_sub s (fa_grid a) (false, false) (influence (fa_grid a) (fa_young a) (fa_sizes a)).
Proof.
  intros a s H [Z0 Z1]. destruct (free_inv a s H) as [L [G [D _]]].
  destruct G as [G1 G2 [P1 P2] G3 G4 G5 G6 G7].
  destruct (G6 L) as (S1 & S2 & S3 & S4 & S5).
  assert (DX : domx s = (2 * gx (fa_grid a))%nat).
  { unfold domx, gx. rewrite D. destruct (fa_grid a) as [|? [|? ?]]; try discriminate; reflexivity. }
  assert (DY : domy s = (2 * gy (fa_grid a))%nat).
  { unfold domy, gy. rewrite D. destruct (fa_grid a) as [|? [|? ?]]; try discriminate; reflexivity. }
  constructor.
  - exact G1.
  - split; [exact L|]. rewrite D, map_length. exact L.
  - split; assumption.
  - lia.
  - unfold free_construct in H.
    destruct (new_on _ (base_args a)) as [h|e]; [|discriminate]. cbn [bind] in H.
    destruct (Nat.eqb (dim h) 1); [discriminate|]. injection H as H. subst s. reflexivity.
  - unfold free_construct in H.
    destruct (new_on _ (base_args a)) as [h|e]; [|discriminate]. cbn [bind] in H.
    destruct (Nat.eqb (dim h) 1); [discriminate|]. injection H as H. subst s. reflexivity.
  - intros x y x' y' Hx Hy Hx' Hy'. cbn [fst snd image_offset].
    rewrite DX, DY.
    assert (RR : forall i j, f_real s i j = pixel (h_young (f_hs s)) (dx (f_hs s) * 0.5) (dy (f_hs s) * 0.5)
            (free_coord (nx (f_hs s)) i * dx (f_hs s)) (free_coord (ny (f_hs s)) j * dy (f_hs s))).
    { intros i j. unfold free_construct in H.
      destruct (new_on _ (base_args a)) as [h|e]; [|discriminate]. cbn [bind] in H.
      destruct (Nat.eqb (dim h) 1); [discriminate|]. injection H as H. subst s. reflexivity. }
    rewrite RR, G4, G5, S3, S4, G3. rewrite !free_index by assumption.
    rewrite influence_pixel by (apply spacing_neq; assumption). reflexivity.
Qed.

(** ** Semi-periodic *)

Lemma Lsum_acc : forall A (l : list A) f acc,
  fold_left (fun s i => s + f i) l acc = acc + fold_left (fun s i => s + f i) l 0.
Proof.
  intros A l f. induction l as [|x l IH]; intros acc; cbn; [ring|].
  rewrite IH, (IH (0 + f x)). ring.
Qed.

Lemma Lsum_cons : forall A (x : A) l f, Lsum (x :: l) f = f x + Lsum l f.
Proof. intros. unfold Lsum. cbn. rewrite Lsum_acc. ring. Qed.

Lemma Lsum_map : forall A B (h : A -> B) l f, Lsum (map h l) f = Lsum l (fun a => f (h a)).
Proof. intros. induction l; [reflexivity|]. cbn [map]. rewrite !Lsum_cons, IHl. reflexivity. Qed.

Lemma Rsum_first : forall n f, Rsum (S n) f = f 0%nat + Rsum n (fun i => f (S i)).
Proof. intros. change (S n) with (1 + n)%nat. rewrite Rsum_split. unfold Rsum at 1. cbn. ring. Qed.

Lemma Lsum_seq : forall n s f, Lsum (seq s n) f = Rsum n (fun i => f (s + i)%nat).
Proof.
  induction n as [|n IH]; intros s f; [reflexivity|].
  cbn [seq]. rewrite Lsum_cons, IH, Rsum_first, Nat.add_0_r. f_equal.
  apply Rsum_ext. intros. f_equal. lia.
Qed.

Lemma Lsum_images : forall per m f, Lsum (images per m) f = image_sum per m f.
Proof.
  intros [|] m f; unfold images, image_sum.
  - rewrite Lsum_map, Lsum_seq. reflexivity.
  - unfold Lsum. cbn. ring.
Qed.

Lemma image_sum_ext : forall per m f g, (forall i, f i = g i) -> image_sum per m f = image_sum per m g.
Proof.
  intros [|] m f g H; unfold image_sum, sum_sym; [|apply H]. apply Rsum_ext. intros. apply H.
Qed.

Lemma semi_inv : forall a s, semi_construct a = Ret s ->
  length (fa_grid (sa_base a)) = 2%nat /\ good (sa_base a) (f_hs s)
  /\ f_dom s = [semi_points (fst (sa_per a)) (gx (fa_grid (sa_base a)));
                semi_points (snd (sa_per a)) (gy (fa_grid (sa_base a)))]
  /\ f_real s = semi_real (f_hs s) (f_dom s) (sa_per a) (sa_images a)
  /\ f_gf s = fft2 (domx s) (domy s) (f_real s)
  /\ f_ss s = compute_surface_stiffness_c (f_gf s)
  /\ f_check s = fa_check (sa_base a).
Proof.
  intros a s H. unfold semi_construct in H.
  destruct (fa_grid (sa_base a)) as [|n0 [|n1 l]] eqn:G; try discriminate.
  destruct (new_on _ (base_args (sa_base a))) as [h|e] eqn:N; [|discriminate]. cbn [bind] in H.
  injection H as H. subst s. cbn [f_hs f_dom f_real f_gf f_ss f_check].
  pose proof (new_good _ _ _ N) as GD.
  split. { destruct GD as [_ [X|X] _ _ _ _ _ _]; rewrite G in X; [discriminate|exact X]. }
  split; [exact GD|]. repeat split; reflexivity.
Qed.

Lemma semi_direct : forall a s, semi_construct a = Ret s -> sizes_ok (sa_base a) ->
  let b := sa_base a in
  direct_sub s (fa_grid b) (sa_per a)
    (image_influence (fa_grid b) (fa_young b) (fa_sizes b) (sa_per a) (sa_images a)).
Proof.
  intros a s H [Z0 Z1] b.
  destruct (semi_inv a s H) as (L & G & D & R & GF & SS & _).
  destruct G as [G1 G2 [P1 P2] G3 G4 G5 G6 G7]. fold b in L, D, G1, G2, P1, P2, G3, G4, G5, G6, Z0, Z1.
  destruct (G6 L) as (S1 & S2 & S3 & S4 & S5).
  assert (DX : domx s = semi_points (fst (sa_per a)) (gx (fa_grid b))) by (unfold domx; rewrite D; reflexivity).
  assert (DY : domy s = semi_points (snd (sa_per a)) (gy (fa_grid b))) by (unfold domy; rewrite D; reflexivity).
  constructor; try assumption.
  - split; [exact L|]. rewrite D. reflexivity.
  - split; assumption.
  - rewrite DX, DY. unfold semi_points. destruct (fst (sa_per a)), (snd (sa_per a)); lia.
  - intros x y x' y' Hx Hy Hx' Hy'. rewrite R. unfold semi_real, image_influence.
    rewrite Lsum_images. apply image_sum_ext. intros ix.
    rewrite Lsum_images. apply image_sum_ext. intros iy.
    unfold semi_inner. fold (domx s) (domy s). unfold fftfreq.
    rewrite DX at 1. rewrite DY at 1.
    assert (I1 := semi_index (fst (sa_per a)) (gx (fa_grid b)) x x' Hx Hx').
    assert (I2 := semi_index (snd (sa_per a)) (gy (fa_grid b)) y y' Hy Hy').
    rewrite <- DX in I1 |- *. rewrite <- DY in I2 |- *. rewrite I1, I2.
    rewrite influence_pixel by (apply spacing_neq; assumption).
    rewrite G3, G4, G5, S1, S2, S3, S4.
    assert (N1 : INR (domx s) <> 0).
    { apply not_0_INR. rewrite DX. unfold semi_points. destruct (fst (sa_per a)); lia. }
    assert (N2 : INR (domy s) <> 0).
    { apply not_0_INR. rewrite DY. unfold semi_points. destruct (snd (sa_per a)); lia. }
    assert (M1 : INR (gx (fa_grid b)) <> 0) by (apply not_0_INR; lia).
    assert (M2 : INR (gy (fa_grid b)) <> 0) by (apply not_0_INR; lia).
    f_equal.
    + rewrite plus_IZR, mult_IZR, <- INR_IZR_INZ. unfold spacing. fold (gx (fa_grid b)).
      field. auto.
    + rewrite plus_IZR, mult_IZR, <- INR_IZR_INZ. unfold spacing. fold (gy (fa_grid b)).
      field. auto.
Qed.

(** ** Symmetry, positivity *)

Lemma influence_even : forall g E sizes i j,
  spacing g sizes 0 <> 0 -> spacing g sizes 1 <> 0 ->
  influence g E sizes (- i) j = influence g E sizes i j
  /\ influence g E sizes i (- j) = influence g E sizes i j.
Proof.
  intros g E sizes i j H0 H1. rewrite !influence_pixel by assumption.
  apply pixel_grid_even; assumption.
Qed.

Lemma influence_pos : forall g E sizes i j, 0 < E ->
  0 < spacing g sizes 0 -> 0 < spacing g sizes 1 -> 0 < influence g E sizes i j.
Proof.
  intros g E sizes i j HE H0 H1. rewrite influence_pixel by lra. apply pixel_grid_pos; assumption.
Qed.

Lemma sum_sym_neg : forall m f, sum_sym m (fun i => f (- i)%Z) = sum_sym m f.
Proof.
  intros m f. unfold sum_sym.
  assert (RV : forall n (g : nat -> R), Rsum n g = Rsum n (fun i => g (n - 1 - i)%nat)).
  { intros n g. apply RtoC_inj. rewrite !Csum_RtoC. apply Csum_rev. }
  rewrite RV. apply Rsum_ext. intros i Hi. f_equal. lia.
Qed.

Lemma image_sum_neg : forall per m f, image_sum per m (fun i => f (- i)%Z) = image_sum per m f.
Proof. intros [|] m f; unfold image_sum; [apply sum_sym_neg|reflexivity]. Qed.

Lemma image_influence_even : forall g E sizes per m i j,
  spacing g sizes 0 <> 0 -> spacing g sizes 1 <> 0 ->
  image_influence g E sizes per m (- i) j = image_influence g E sizes per m i j
  /\ image_influence g E sizes per m i (- j) = image_influence g E sizes per m i j.
Proof.
  intros g E sizes per m i j H0 H1. unfold image_influence. split.
  - rewrite <- image_sum_neg. apply image_sum_ext. intros ix. apply image_sum_ext. intros iy.
    replace (- i + - ix * Z.of_nat (gx g))%Z with (- (i + ix * Z.of_nat (gx g)))%Z by ring.
    apply influence_even; assumption.
  - apply image_sum_ext. intros ix. rewrite <- image_sum_neg. apply image_sum_ext. intros iy.
    replace (- j + - iy * Z.of_nat (gy g))%Z with (- (j + iy * Z.of_nat (gy g)))%Z by ring.
    apply influence_even; assumption.
Qed.

Lemma Rsum_pos : forall n f, (0 < n)%nat -> (forall i, (i < n)%nat -> 0 < f i) -> 0 < Rsum n f.
Proof.
  intros n f Hn H. destruct n as [|n]; [lia|]. rewrite Rsum_first.
  assert (0 < f 0%nat) by (apply H; lia).
  assert (0 <= Rsum n (fun i => f (S i))).
  { apply Rsum_nonneg. intros. left. apply H. lia. }
  lra.
Qed.

Lemma image_sum_pos : forall per m f, (forall i, 0 < f i) -> 0 < image_sum per m f.
Proof.
  intros [|] m f H; unfold image_sum, sum_sym; [|apply H]. apply Rsum_pos; [lia|]. intros. apply H.
Qed.

Lemma image_influence_pos : forall g E sizes per m i j, 0 < E ->
  0 < spacing g sizes 0 -> 0 < spacing g sizes 1 -> 0 < image_influence g E sizes per m i j.
Proof.
  intros. unfold image_influence. apply image_sum_pos. intros ix. apply image_sum_pos. intros iy.
  apply influence_pos; assumption.
Qed.

(** Offsets from [x'] to [x] and back are opposite up to the minimum-image
    tie at half the cell, where the kernel is even. *)
Lemma image_offset_neg : forall per n x x', (x < n)%nat -> (x' < n)%nat ->
  image_offset per n x' x = (- image_offset per n x x')%Z
  \/ (per = true /\ image_offset per n x' x = image_offset per n x x').
Proof.
  intros [|] n x x' Hx Hx'; unfold image_offset.
  - pose proof (Nat.div_mod n 2 ltac:(lia)). pose proof (Nat.mod_upper_bound n 2 ltac:(lia)).
    unfold wrap, offset.
    set (h := Z.of_nat (n / 2)).
    assert (W : forall d, (- Z.of_nat n < d < Z.of_nat n)%Z ->
      ((d + h) mod Z.of_nat n = if Z.ltb (d + h) 0 then d + h + Z.of_nat n
        else if Z.ltb (d + h) (Z.of_nat n) then d + h else d + h - Z.of_nat n)%Z).
    { intros d Hd. destruct (Z.ltb_spec (d + h) 0).
      - symmetry. apply (Z.mod_unique_pos _ _ (-1)); unfold h in *; lia.
      - destruct (Z.ltb_spec (d + h) (Z.of_nat n)).
        + apply Z.mod_small. lia.
        + symmetry. apply (Z.mod_unique_pos _ _ 1); unfold h in *; lia. }
    rewrite !W by lia.
    destruct (Z.ltb_spec (Z.of_nat x' - Z.of_nat x + h) 0);
    destruct (Z.ltb_spec (Z.of_nat x - Z.of_nat x' + h) 0);
    destruct (Z.ltb_spec (Z.of_nat x' - Z.of_nat x + h) (Z.of_nat n));
    destruct (Z.ltb_spec (Z.of_nat x - Z.of_nat x' + h) (Z.of_nat n)); unfold h in *; lia.
  - left. unfold offset. ring.
Qed.

Lemma direct_adjoint : forall (K : Z -> Z -> R) g per f f',
  (forall i j, K (- i)%Z j = K i j /\ K i (- j)%Z = K i j) ->
  inner g f (direct K g per f') = inner g f' (direct K g per f).
Proof.
  intros K g per f f' HK. unfold inner, total, direct.
  assert (S4 : forall n m (F : nat -> nat -> nat -> nat -> R),
    Rsum2 n m (fun i j => Rsum2 n m (fun k l => F i j k l))
    = Rsum2 n m (fun k l => Rsum2 n m (fun i j => F i j k l))).
  { intros n m F. apply RtoC_inj. rewrite !Csum2_RtoC.
    rewrite (Csum2_ext n m _ (fun i j => Csum2 n m (fun k l => RtoC (F i j k l)))).
    2:{ intros. apply Csum2_RtoC. }
    rewrite Csum2_swap4. apply Csum2_ext. intros. symmetry. apply Csum2_RtoC. }
  rewrite (Rsum2_ext _ _ _ (fun x y => Rsum2 (gx g) (gy g) (fun x' y' =>
    f x y * (K (image_offset (fst per) (gx g) x x') (image_offset (snd per) (gy g) y y') * f' x' y')))).
  2:{ intros. rewrite <- Rsum2_scal. reflexivity. }
  rewrite S4. apply Rsum2_ext. intros x' y' Hx' Hy'.
  rewrite <- Rsum2_scal. apply Rsum2_ext. intros x y Hx Hy.
  assert (E : K (image_offset (fst per) (gx g) x x') (image_offset (snd per) (gy g) y y')
            = K (image_offset (fst per) (gx g) x' x) (image_offset (snd per) (gy g) y' y)).
  { destruct (image_offset_neg (fst per) (gx g) x' x Hx' Hx) as [A|[_ A]];
    destruct (image_offset_neg (snd per) (gy g) y' y Hy' Hy) as [B|[_ B]]; rewrite A, B;
    rewrite ?(proj1 (HK _ _)), ?(proj2 (HK _ _)); reflexivity. }
  rewrite E. ring.
Qed.
