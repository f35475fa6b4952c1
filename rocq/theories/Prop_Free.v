(** * Properties of [FreeFFTElasticHalfSpace] and
      [SemiPeriodicFFTElasticHalfSpace] (C33-C39)

    Vocabulary: [HalfSpace_Spec], [Free_Spec].  [free_construct a = Ret s]
    ([semi_construct]): the constructor call succeeded and produced [s].
    [influence g E sizes i j] is the displacement per unit pressure on one
    pixel at [i], [j] grid points distance (closed form of Love). *)
From Coq Require Import Reals ZArith Lia Lra List Arith Bool.
From Coquelicot Require Import Coquelicot.
From Verif Require Import Py FFT_Base HalfSpace_Model HalfSpace_Spec
  HalfSpace_Proofs HalfSpace_Results3 Free_Model Free_Spec Pixel Free_Proofs Free_Results.
Import ListNotations.
Local Open Scope R_scope.

Definition fhA := mkFargs [3; 2]%nat 2 [3; 5] None true.
Definition fhB := mkFargs [3; 2]%nat 2 [3; 5] (Some [6; 4]%nat) false.
Definition shA := mkSargs (mkFargs [3; 2]%nat 2 [3; 5] None true) (true, false) 2.
Definition shB := mkSargs (mkFargs [3; 2]%nat 2 [3; 5] (Some [3; 2]%nat) true) (true, true) 1.
Definition shC := mkSargs (mkFargs [3; 2]%nat 2 [3; 5] None true) (false, false) 7.

Lemma fh_ok : (exists s, free_construct fhA = Ret s) /\ (exists s, free_construct fhB = Ret s).
Proof.
  split; (apply (free_ok _ 3 2); [reflexivity|lia|lia|discriminate|]);
    intros g E; inversion E; reflexivity.
Qed.
Lemma sh_ok : (exists s, semi_construct shA = Ret s) /\ (exists s, semi_construct shB = Ret s)
  /\ (exists s, semi_construct shC = Ret s).
Proof.
  split; [|split]; (apply (semi_ok _ 3 2); [reflexivity|lia|lia|discriminate|]);
    intros g E; inversion E; reflexivity.
Qed.

(** ** C33 Free half-space computes the aperiodic convolution *)
Theorem C33_free_convolution : forall a s f pad, free_construct a = Ret s ->
  cell_size (fa_sizes a) 0 <> 0 -> cell_size (fa_sizes a) 1 <> 0 ->
  let g := fa_grid a in
  exists u, free_disp s (mkArr g f) pad = Ret u
    /\ a_shape u = (if pad then map (fun n => (2 * n)%nat) g else g)
    /\ same_on g (a_val u) (fun x y =>
         - (/ point_area g (fa_sizes a)) * Rsum2 (gx g) (gy g) (fun x' y' =>
             influence g (fa_young a) (fa_sizes a) (offset x x') (offset y y') * f x' y')).
Proof.
  intros a s f pad H Z0 Z1 g. pose proof (free_direct a s H (conj Z0 Z1)) as D.
  destruct (free_inv a s H) as (L & G & Dom & _).
  destruct (free_disp_direct s _ _ _ D f pad) as (u & U1 & U2 & U3).
  exists u. split; [exact U1|]. split; [rewrite U2, Dom; reflexivity|].
  destruct (g_sz _ _ G L) as (_ & _ & _ & _ & A). rewrite A in U3. exact U3.
Qed.
Print Assumptions C33_free_convolution.

(** The constructor accepts exactly two-dimensional grids. *)
Theorem C33_one_dimensional_raises : forall a, length (fa_grid a) = 1%nat ->
  is_exc (free_construct a) = true /\
  (fa_sizes a <> [] -> nth 0 (fa_grid a) 0%nat <> 0%nat -> fa_engine a = None ->
   free_construct a = Exc TypeErr).
Proof.
  intros a L.
  destruct (free_construct a) as [s|e] eqn:E.
  - destruct (free_inv a s E) as [L' _]. lia.
  - split; [reflexivity|]. intros Hs Hn He. rewrite <- E. unfold free_construct.
    destruct (proj2 (new_ok_iff (base_args a))) as [h Hh].
    { cbn. split; [left; exact L|]. split; [left; reflexivity|]. split; [exact Hs|].
      split; [|split; [lra|rewrite He; discriminate]].
      destruct (fa_grid a) as [|n [|? ?]]; try discriminate. intros k [K|[]]. subst. exact Hn. }
    assert (N : new_on (map (fun r => (2 * r)%nat) (fa_grid a)) (base_args a) = new (base_args a)).
    { unfold new, new_on. cbn [base_args a_engine a_grid]. rewrite He. reflexivity. }
    rewrite N, Hh. cbn [bind]. destruct (zero_thick_q0 _ _ Hh) as [_ [_ [_ [Eg _]]]]. cbn in Eg.
    unfold dim. rewrite Eg, L. reflexivity.
Qed.
Print Assumptions C33_one_dimensional_raises.
Example C33_nonvacuous :
  ((exists s, free_construct fhA = Ret s) /\ (exists s, free_construct fhB = Ret s))
  /\ cell_size (fa_sizes fhA) 0 <> 0 /\ cell_size (fa_sizes fhA) 1 <> 0.
Proof. split; [exact fh_ok|]. cbn. lra. Qed.

(** ** C34 Padded and unpadded forces agree, wrong shapes are rejected *)
Lemma padded_agrees : forall s g per K, direct_sub s g per K -> forall f,
  exists up v w, free_disp s (mkArr (f_dom s) (extend0 g f)) true = Ret up
    /\ free_disp s (mkArr g f) true = Ret v /\ free_disp s (mkArr g f) false = Ret w
    /\ a_shape up = f_dom s /\ a_shape v = f_dom s /\ a_shape w = g
    /\ same_on (f_dom s) (a_val v) (a_val up) /\ same_on g (a_val w) (a_val up).
Proof.
  intros s g per K D f. pose proof (topo_shape_eq s g per K D) as T.
  destruct D as [E1 [L1 L2] [P1 P2] [E2 E3] G _ R].
  unfold free_disp. rewrite T. cbn [a_shape a_val]. rewrite shape_eqb_refl.
  destruct (shape_eqb g (f_dom s)) eqn:S.
  - apply shape_eqb_spec in S. unfold base_disp. cbn [a_shape a_val]. rewrite <- S, shape_eqb_refl.
    cbn [negb]. do 3 eexists. do 3 (split; [reflexivity|]). do 3 (split; [reflexivity|]).
    assert (X : same_on g
      (fun x y => irfft2 (domx s) (domy s) (fun k l => (fft2 (domx s) (domy s)
          (fun x y => - f x y)%R k l * f_gf s k l)%C) x y / area_per_pt (f_hs s)
          * (1 / (INR (domx s) * INR (domy s))))
      (fun x y => irfft2 (domx s) (domy s) (fun k l => (fft2 (domx s) (domy s)
          (fun x y => - extend0 g f x y)%R k l * f_gf s k l)%C) x y / area_per_pt (f_hs s)
          * (1 / (INR (domx s) * INR (domy s))))).
    { intros x y _. f_equal. f_equal. apply irfft2_ext. intros k l _ _. f_equal.
      apply fft2_ext. intros x' y' Hx' Hy'. unfold domx, domy in Hx', Hy'. rewrite <- S in Hx', Hy'.
      unfold extend0, gx, gy.
      destruct (Nat.ltb_spec x' (nth 0 g 1%nat)); [|lia].
      destruct (Nat.ltb_spec y' (nth 1 g 1%nat)); [|lia]. reflexivity. }
    split; exact X.
  - rewrite shape_eqb_refl. unfold base_disp. cbn [a_shape a_val]. rewrite shape_eqb_refl. cbn [negb].
    do 3 eexists. do 2 (split; [reflexivity|]). cbn [bind]. split; [reflexivity|].
    do 3 (split; [reflexivity|]). split; intros x y _; reflexivity.
Qed.

Theorem C34_padded_agrees : forall a s f, free_construct a = Ret s ->
  cell_size (fa_sizes a) 0 <> 0 -> cell_size (fa_sizes a) 1 <> 0 ->
  let g := fa_grid a in
  let gg := map (fun n => (2 * n)%nat) g in
  exists up v w, free_disp s (mkArr gg (extend0 g f)) true = Ret up
    /\ free_disp s (mkArr g f) true = Ret v /\ free_disp s (mkArr g f) false = Ret w
    /\ a_shape up = gg /\ a_shape v = gg /\ a_shape w = g
    /\ same_on gg (a_val v) (a_val up) /\ same_on g (a_val w) (a_val up).
Proof.
  intros a s f H Z0 Z1 g gg. pose proof (free_direct a s H (conj Z0 Z1)) as D.
  destruct (free_inv a s H) as (_ & _ & Dom & _). unfold gg, g. rewrite <- Dom.
  exact (padded_agrees s _ _ _ D f).
Qed.
Print Assumptions C34_padded_agrees.

Theorem C34_semi_padded_agrees : forall a s f, semi_construct a = Ret s ->
  cell_size (fa_sizes (sa_base a)) 0 <> 0 -> cell_size (fa_sizes (sa_base a)) 1 <> 0 ->
  let g := fa_grid (sa_base a) in
  let gg := [if fst (sa_per a) then gx g else 2 * gx g - 1;
             if snd (sa_per a) then gy g else 2 * gy g - 1]%nat in
  exists up v w, free_disp s (mkArr gg (extend0 g f)) true = Ret up
    /\ free_disp s (mkArr g f) true = Ret v /\ free_disp s (mkArr g f) false = Ret w
    /\ a_shape up = gg /\ a_shape v = gg /\ a_shape w = g
    /\ same_on gg (a_val v) (a_val up) /\ same_on g (a_val w) (a_val up).
Proof.
  intros a s f H Z0 Z1 g gg. pose proof (semi_direct a s H (conj Z0 Z1)) as D.
  destruct (semi_inv a s H) as (_ & _ & Dom & _).
  assert (E : gg = f_dom s).
  { rewrite Dom. unfold gg, semi_points. fold g. rewrite !(Nat.mul_comm 2). reflexivity. }
  rewrite E. exact (padded_agrees s _ _ _ D f).
Qed.
Print Assumptions C34_semi_padded_agrees.

Theorem C34_wrong_shape_raises : forall a s arr pad, free_construct a = Ret s ->
  a_shape arr <> fa_grid a -> a_shape arr <> map (fun n => (2 * n)%nat) (fa_grid a) ->
  free_disp s arr pad = Exc SubstrateError.
Proof.
  intros a s arr pad H N1 N2. destruct (free_inv a s H) as (L & G & Dom & _).
  unfold free_disp. rewrite Dom.
  destruct (shape_eqb (a_shape arr) _) eqn:S1.
  { apply shape_eqb_spec in S1. contradiction. }
  destruct (shape_eqb (a_shape arr) (topo_shape s)) eqn:S2; [|reflexivity].
  apply shape_eqb_spec in S2. exfalso. apply N1. rewrite S2. unfold topo_shape.
  rewrite Dom, (g_grid _ _ G).
  destruct (fa_grid a) as [|n [|m [|? ?]]]; try discriminate. cbn [combine map fst snd].
  rewrite !Nat.min_l by lia. reflexivity.
Qed.
Print Assumptions C34_wrong_shape_raises.
Theorem C34_semi_wrong_shape_raises : forall a s arr pad, semi_construct a = Ret s ->
  a_shape arr <> fa_grid (sa_base a) ->
  a_shape arr <> [if fst (sa_per a) then gx (fa_grid (sa_base a)) else 2 * gx (fa_grid (sa_base a)) - 1;
                  if snd (sa_per a) then gy (fa_grid (sa_base a)) else 2 * gy (fa_grid (sa_base a)) - 1]%nat ->
  free_disp s arr pad = Exc SubstrateError.
Proof.
  intros a s arr pad H N1 N2. destruct (semi_inv a s H) as (L & G & Dom & _).
  unfold free_disp. rewrite Dom.
  destruct (shape_eqb (a_shape arr) _) eqn:S1.
  { apply shape_eqb_spec in S1. exfalso. apply N2. rewrite S1. unfold semi_points. rewrite !(Nat.mul_comm _ 2). reflexivity. }
  destruct (shape_eqb (a_shape arr) (topo_shape s)) eqn:S2; [|reflexivity].
  apply shape_eqb_spec in S2. exfalso. apply N1. rewrite S2. unfold topo_shape.
  rewrite Dom, (g_grid _ _ G).
  pose proof (g_pos _ _ G) as GP.
  destruct (fa_grid (sa_base a)) as [|n [|m [|? ?]]]; try discriminate. cbn [combine map fst snd].
  unfold semi_points, gx, gy in *. cbn [nth] in *. f_equal; [|f_equal]; destruct (sa_per a) as [[] []]; cbn [fst snd]; lia.
Qed.
Print Assumptions C34_semi_wrong_shape_raises.

(** In a parallel run every process pads its own piece; together the pieces
    are the zero-padded global array. *)
Theorem C34_parallel_padding : forall n d F i j,
  (i < fst (d_n d))%nat -> (j < snd (d_n d))%nat ->
  local_pad n d (fun i j => F (fst (d_loc d) + i)%nat (snd (d_loc d) + j)%nat) i j
  = extend0 [fst n; snd n] F (fst (d_loc d) + i)%nat (snd (d_loc d) + j)%nat.
Proof. exact local_pad_spec. Qed.
Print Assumptions C34_parallel_padding.
Example C34_nonvacuous :
  ((exists s, free_construct fhA = Ret s) /\ (exists s, semi_construct shA = Ret s)
   /\ (exists s, semi_construct shB = Ret s))
  /\ cell_size (fa_sizes fhA) 0 <> 0 /\ cell_size (fa_sizes fhA) 1 <> 0
  /\ ([3; 3]%nat <> fa_grid fhA /\ [3; 3]%nat <> map (fun n => (2 * n)%nat) (fa_grid fhA))
  /\ (1 < fst (d_n (mkDec (2, 0) (2, 4))))%nat /\ (3 < snd (d_n (mkDec (2, 0) (2, 4))))%nat.
Proof.
  split; [split; [exact (proj1 fh_ok)|split; apply sh_ok]|].
  split; [cbn; lra|]. split; [cbn; lra|]. split; [split; discriminate|]. cbn. lia.
Qed.

(** ** C35 Free-space influence function *)
Theorem C35_influence_even_positive : forall g E sizes i j, 0 < E ->
  0 < spacing g sizes 0 -> 0 < spacing g sizes 1 ->
  influence g E sizes (- i) j = influence g E sizes i j
  /\ influence g E sizes i (- j) = influence g E sizes i j
  /\ 0 < influence g E sizes i j.
Proof.
  intros g E sizes i j HE H0 H1.
  destruct (influence_even g E sizes i j) as [A B]; try lra.
  split; [exact A|]. split; [exact B|]. apply influence_pos; assumption.
Qed.
Print Assumptions C35_influence_even_positive.

(** Away from the loaded pixel it is the integral of the Boussinesq kernel
    [1/(pi E r)] over the pixel. *)
Theorem C35_influence_integral : forall g E sizes i j,
  0 < spacing g sizes 0 -> 0 < spacing g sizes 1 -> (i <> 0 \/ j <> 0)%Z ->
  let x := IZR (Z.abs i) * spacing g sizes 0 in
  let y := IZR (Z.abs j) * spacing g sizes 1 in
  is_RInt (fun v => RInt (fun u => 1 / (PI * E) * / sqrt (u * u + v * v))
                         (x - spacing g sizes 0 / 2) (x + spacing g sizes 0 / 2))
          (y - spacing g sizes 1 / 2) (y + spacing g sizes 1 / 2)
          (influence g E sizes i j).
Proof.
  intros g E sizes i j H0 H1 H x y.
  assert (A : influence g E sizes i j = influence g E sizes (Z.abs i) (Z.abs j)).
  { destruct (Z.abs_eq_or_opp i) as [A|A]; destruct (Z.abs_eq_or_opp j) as [B|B]; rewrite A, B;
    rewrite ?(proj1 (influence_even g E sizes _ _ ltac:(lra) ltac:(lra)));
    rewrite ?(proj2 (influence_even g E sizes _ _ ltac:(lra) ltac:(lra))); reflexivity. }
  rewrite A, influence_pixel by lra. fold x y.
  replace (spacing g sizes 0 / 2) with (spacing g sizes 0 * 0.5) by lra.
  replace (spacing g sizes 1 / 2) with (spacing g sizes 1 * 0.5) by lra.
  destruct (half_offset (Z.abs i) (spacing g sizes 0) ltac:(lra)) as [X1 X2].
  destruct (half_offset (Z.abs j) (spacing g sizes 1) ltac:(lra)) as [Y1 Y2].
  replace (spacing g sizes 0 / 2) with (spacing g sizes 0 * 0.5) in * by lra.
  replace (spacing g sizes 1 / 2) with (spacing g sizes 1 * 0.5) in * by lra.
  apply pixel_integral; try lra; try assumption.
  destruct H as [H|H].
  - left. unfold x. assert (1 <= IZR (Z.abs i)) by (apply IZR_le; lia). nra.
  - right. unfold y. assert (1 <= IZR (Z.abs j)) by (apply IZR_le; lia). nra.
Qed.
Print Assumptions C35_influence_integral.

Lemma self_adjoint_of_direct : forall s g per K, direct_sub s g per K ->
  (forall i j, K (- i)%Z j = K i j /\ K i (- j)%Z = K i j) ->
  forall f f', exists u u', free_disp s (mkArr g f) false = Ret u
    /\ free_disp s (mkArr g f') false = Ret u'
    /\ inner g f' (a_val u) = inner g f (a_val u').
Proof.
  intros s g per K D HK f f'.
  destruct (free_disp_direct s g per K D f false) as (u & U1 & _ & U3).
  destruct (free_disp_direct s g per K D f' false) as (u' & V1 & _ & V3).
  exists u, u'. split; [exact U1|]. split; [exact V1|].
  assert (X : forall h v h', same_on g v (fun x y => - / area_per_pt (f_hs s) * direct K g per h' x y) ->
    inner g h v = - / area_per_pt (f_hs s) * inner g h (direct K g per h')).
  { intros h v h' Hv. unfold inner, total. rewrite <- Rsum2_scal. apply Rsum2_ext.
    intros x y Hx Hy. rewrite Hv by (split; assumption). ring. }
  rewrite (X f' _ f U3), (X f _ f' V3). f_equal. apply direct_adjoint. exact HK.
Qed.

Theorem C35_self_adjoint : forall a s f f', free_construct a = Ret s ->
  cell_size (fa_sizes a) 0 <> 0 -> cell_size (fa_sizes a) 1 <> 0 ->
  exists u u', free_disp s (mkArr (fa_grid a) f) false = Ret u
    /\ free_disp s (mkArr (fa_grid a) f') false = Ret u'
    /\ inner (fa_grid a) f' (a_val u) = inner (fa_grid a) f (a_val u').
Proof.
  intros a s f f' H Z0 Z1. pose proof (free_direct a s H (conj Z0 Z1)) as D.
  destruct (ds_pos _ _ _ _ D) as [P0 P1].
  apply (self_adjoint_of_direct _ _ _ _ D). intros i j.
  apply influence_even; apply spacing_neq; assumption.
Qed.
Print Assumptions C35_self_adjoint.

(** A force that nowhere pulls on the substrate and is not identically zero
    displaces every point of the surface to the same side. *)
Lemma Rsum2_pos1 : forall n m f a b, (a < n)%nat -> (b < m)%nat ->
  (forall i j, (i < n)%nat -> (j < m)%nat -> 0 <= f i j) -> 0 < f a b -> 0 < Rsum2 n m f.
Proof.
  intros n m f a b Ha Hb Hf Hp.
  assert (0 <= Rsum2 n m f) by (apply Rsum2_nonneg; exact Hf).
  destruct (Req_dec (Rsum2 n m f) 0) as [Z|Z]; [|lra].
  exfalso. pose proof (Rsum2_zero_terms n m f Hf Z a b Ha Hb). lra.
Qed.

Theorem C35_displacement_sign : forall a s f, free_construct a = Ret s -> 0 < fa_young a ->
  0 < cell_size (fa_sizes a) 0 -> 0 < cell_size (fa_sizes a) 1 ->
  (forall x y, on_grid (fa_grid a) x y -> f x y <= 0) ->
  (exists x y, on_grid (fa_grid a) x y /\ f x y < 0) ->
  exists u, free_disp s (mkArr (fa_grid a) f) false = Ret u
    /\ forall x y, on_grid (fa_grid a) x y -> 0 < a_val u x y.
Proof.
  intros a s f H HE Z0 Z1 Hf (x0 & y0 & [G1 G2] & Hn).
  destruct (C33_free_convolution a s f false H ltac:(lra) ltac:(lra)) as (u & U1 & _ & U3).
  pose proof (free_direct a s H (conj (Rgt_not_eq _ _ Z0) (Rgt_not_eq _ _ Z1))) as D.
  destruct (ds_pos _ _ _ _ D) as [P0 P1].
  destruct (free_inv a s H) as (L & _).
  exists u. split; [exact U1|]. intros x y G. rewrite (U3 x y G).
  assert (S0 : 0 < spacing (fa_grid a) (fa_sizes a) 0).
  { unfold spacing. apply Rdiv_lt_0_compat; [assumption|]. apply lt_0_INR. exact P0. }
  assert (S1 : 0 < spacing (fa_grid a) (fa_sizes a) 1).
  { unfold spacing. apply Rdiv_lt_0_compat; [assumption|]. apply lt_0_INR. exact P1. }
  assert (A : 0 < point_area (fa_grid a) (fa_sizes a)).
  { unfold point_area. rewrite L. cbn [Nat.eqb].
    apply Rdiv_lt_0_compat; apply Rmult_lt_0_compat; try assumption; apply lt_0_INR; assumption. }
  match goal with |- 0 < - _ * Rsum2 ?n ?m ?F =>
    assert (B : 0 < Rsum2 n m (fun i j => -1 * F i j)) end.
  { apply (Rsum2_pos1 _ _ _ x0 y0 G1 G2).
    - intros i j Hi Hj. pose proof (Hf i j (conj Hi Hj)).
      pose proof (influence_pos (fa_grid a) (fa_young a) (fa_sizes a) (offset x i) (offset y j) HE S0 S1).
      nra.
    - pose proof (influence_pos (fa_grid a) (fa_young a) (fa_sizes a) (offset x x0) (offset y y0) HE S0 S1).
      nra. }
  rewrite Rsum2_scal in B. pose proof (Rinv_0_lt_compat _ A). nra.
Qed.
Print Assumptions C35_displacement_sign.
Example C35_nonvacuous :
  ((exists s, free_construct fhA = Ret s) /\ 0 < fa_young fhA
   /\ 0 < cell_size (fa_sizes fhA) 0 /\ 0 < cell_size (fa_sizes fhA) 1)
  /\ (0 < spacing (fa_grid fhA) (fa_sizes fhA) 0 /\ 0 < spacing (fa_grid fhA) (fa_sizes fhA) 1)
  /\ (exists f : field, (forall x y, on_grid (fa_grid fhA) x y -> f x y <= 0)
        /\ exists x y, on_grid (fa_grid fhA) x y /\ f x y < 0).
Proof.
  split; [split; [exact (proj1 fh_ok)|cbn; lra]|].
  split; [unfold spacing; cbn; lra|].
  exists (fun x y => if Nat.eqb x 2 then -1 else 0). split.
  - intros x y _. destruct (Nat.eqb x 2); lra.
  - exists 2%nat, 1%nat. split; [split; cbn; lia|]. cbn. lra.
Qed.

(** ** C36 Boundary check detects force on the rim *)

(** For every distribution of the computational grid over processes with
    non-empty subdomains that cover the topography, none of which starts at
    the last row or column.  [F x y = None]: masked entry. *)
Theorem C36_check_boundaries : forall n tol ds (F : mfield),
  (0 < fst n)%nat -> (0 < snd n)%nat ->
  (forall d, In d ds -> (0 < fst (d_n d))%nat /\ (0 < snd (d_n d))%nat) ->
  (forall x y, (x < fst n)%nat -> (y < snd n)%nat -> exists d, In d ds /\
     (fst (d_loc d) <= x < fst (d_loc d) + fst (d_n d))%nat
     /\ (snd (d_loc d) <= y < snd (d_loc d) + snd (d_n d))%nat) ->
  (forall d, In d ds -> ~ (S (fst (d_loc d)) = fst n /\ 2 <= fst n)%nat
                     /\ ~ (S (snd (d_loc d)) = snd n /\ 2 <= snd n)%nat) ->
  ((exists x y r, rim n x y /\ F x y = Some r /\ tol < Rabs r) ->
     check_boundaries n tol ds F = Exc FreeBoundaryError)
  /\ ((forall x y r, rim n x y -> F x y = Some r -> Rabs r <= tol) ->
     check_boundaries n tol ds F = Ret tt).
Proof.
  intros n tol ds F H0 H1 Hne Hc Hs. split.
  - apply check_complete; assumption.
  - apply check_sound; assumption.
Qed.
Print Assumptions C36_check_boundaries.

(** Serial run: no restriction. *)
Theorem C36_check_boundaries_serial : forall n N tol (F : mfield),
  (0 < fst n <= fst N)%nat -> (0 < snd n <= snd N)%nat ->
  (check_boundaries n tol [mkDec (0, 0)%nat N] F = Exc FreeBoundaryError <->
     exists x y r, rim n x y /\ F x y = Some r /\ tol < Rabs r).
Proof.
  intros n N tol F H0 H1. split.
  - intros H. unfold check_boundaries in H. cbn [forallb] in H.
    destruct (check_local n tol _ _) eqn:C; cbn [andb] in H; [discriminate|].
    cbn [d_loc fst snd Nat.add] in C.
    unfold check_local in C. apply andb_false_iff in C.
    assert (W : forall (A : Type) (p : A -> bool) l, forallb p l = false -> exists v, In v l /\ p v = false).
    { intros A p l. induction l as [|v l IH]; cbn; [discriminate|].
      intros E. apply andb_false_iff in E. destruct E as [E|E]; [exists v; auto|].
      destruct (IH E) as (v' & A1 & A2). exists v'. auto. }
    assert (V : forall vals, check_vals tol vals = false -> exists r, In (Some r) vals /\ tol < Rabs r).
    { intros vals E.
      destruct (existsb (fun v => match v with Some r => negb (Rle_bool (Rabs r) tol) | None => false end) vals) eqn:X.
      - apply existsb_exists in X. destruct X as ([r|] & I & Y); [|discriminate].
        exists r. split; [exact I|]. unfold Rle_bool in Y.
        destruct (Rle_dec (Rabs r) tol); [discriminate|lra].
      - exfalso. assert (Y : check_vals tol vals = true); [|congruence].
        apply check_vals_spec. intros r I.
        destruct (Rle_dec (Rabs r) tol) as [Z|Z]; [exact Z|]. exfalso.
        assert (T : existsb (fun v => match v with Some r => negb (Rle_bool (Rabs r) tol) | None => false end) vals = true).
        { apply existsb_exists. exists (Some r). split; [exact I|]. unfold Rle_bool.
          destruct (Rle_dec (Rabs r) tol); [contradiction|reflexivity]. }
        congruence. }
    cbn [d_n d_loc fst snd] in C.
    destruct C as [C|C]; apply W in C; destruct C as (k & Ik & Ck); apply V in Ck;
      destruct Ck as (r & Ir & Hr); apply in_map_iff in Ir; destruct Ir as (j & Ej & Ij);
      apply in_seq in Ij; apply rim_lines_sound in Ik; try lia;
      unfold topo_n, topo_sub in *; cbn [fst snd d_n d_loc] in *.
    + exists j, k, r. split; [unfold rim; lia|]. auto.
    + exists k, j, r. split; [unfold rim; lia|]. auto.
  - intros H. apply check_complete; [| |exact H].
    + intros d [E|[]]. subst d. unfold starts_inside. cbn. lia.
    + intros x y Hx Hy. exists (mkDec (0, 0)%nat N). split; [left; reflexivity|].
      unfold owns. cbn. lia.
Qed.
Print Assumptions C36_check_boundaries_serial.

(** [check] does this with tolerance 0 if the option is on and nothing
    otherwise. *)
Theorem C36_check_option : forall s n ds F,
  check s n ds F = (if f_check s then check_boundaries n 0 ds F else Ret tt)
  /\ forall a, (free_construct a = Ret s -> f_check s = fa_check a)
  /\ (forall per m, semi_construct (mkSargs a per m) = Ret s -> f_check s = fa_check a).
Proof.
  intros s n ds F. split; [reflexivity|]. intros a. split.
  - intros H. apply (free_inv a s H).
  - intros per m H. apply (semi_inv _ _ H).
Qed.
Print Assumptions C36_check_option.

Theorem C36_boundary_mask : forall n d i j, (0 < fst n)%nat -> (0 < snd n)%nat ->
  (0 < fst (d_n d))%nat /\ (0 < snd (d_n d))%nat ->
  ~ (S (fst (d_loc d)) = fst n /\ 2 <= fst n)%nat ->
  ~ (S (snd (d_loc d)) = snd n /\ 2 <= snd n)%nat ->
  (i < fst (topo_n n d))%nat -> (j < snd (topo_n n d))%nat ->
  (boundary_mask n d i j = true <-> rim n (fst (d_loc d) + i)%nat (snd (d_loc d) + j)%nat).
Proof.
  intros n d i j H0 H1 Hn S0 S1 Hi Hj.
  destruct (mask_spec n d i j H0 H1 Hn Hi Hj) as [A B]. split; [exact A|].
  intros R. apply B; [split; assumption|exact R].
Qed.
Print Assumptions C36_boundary_mask.

(** Without the restriction on the decomposition the check is blind: a 4x4
    topography on an 8x8 grid split into slabs of 3, 3 and 2 rows, with force
    in the last row. *)
Theorem C36_decomposition_refuted : exists ds F,
  (forall d, In d ds -> (0 < fst (d_n d))%nat /\ (0 < snd (d_n d))%nat)
  /\ (forall x y, (x < 8)%nat -> (y < 8)%nat -> exists d, In d ds /\
       (fst (d_loc d) <= x < fst (d_loc d) + fst (d_n d))%nat
       /\ (snd (d_loc d) <= y < snd (d_loc d) + snd (d_n d))%nat)
  /\ rim (4, 4)%nat 3 1 /\ F 3%nat 1%nat = Some 1
  /\ check_boundaries (4, 4)%nat 0 ds F = Ret tt
  /\ exists d, In d ds /\ d_loc d = (3, 0)%nat /\ boundary_mask (4, 4)%nat d 0 1 = false.
Proof.
  exists [mkDec (0, 0) (3, 8); mkDec (3, 0) (3, 8); mkDec (6, 0) (2, 8)]%nat.
  exists (fun x y => if andb (Nat.eqb x 3) (Nat.eqb y 1) then Some 1 else Some 0).
  split; [intros d [E|[E|[E|[]]]]; subst d; cbn; lia|].
  split.
  { intros x y Hx Hy.
    destruct (Nat.lt_ge_cases x 3); [exists (mkDec (0, 0) (3, 8))%nat; split; [cbn; tauto|cbn; lia]|].
    destruct (Nat.lt_ge_cases x 6); [exists (mkDec (3, 0) (3, 8))%nat; split; [cbn; tauto|cbn; lia]|].
    exists (mkDec (6, 0) (2, 8))%nat; split; [cbn; tauto|cbn; lia]. }
  split; [unfold rim; cbn; lia|]. split; [reflexivity|]. split.
  - unfold check_boundaries.
    match goal with |- (if ?b then _ else _) = _ => assert (E : b = true); [|rewrite E; reflexivity] end.
    apply forallb_forall. intros d Hd. unfold check_local. apply andb_true_iff.
    assert (RL : rim_lines 4 0 3 = [0%nat] /\ rim_lines 4 3 3 = [] /\ rim_lines 4 6 2 = []
                 /\ rim_lines 4 0 8 = [0; 3]%nat) by (repeat split; reflexivity).
    destruct RL as (R1 & R2 & R3 & R4).
    assert (Z : forall x y r, (x <> 3 \/ y <> 1)%nat ->
      (if andb (Nat.eqb x 3) (Nat.eqb y 1) then Some 1 else Some 0) = Some r -> Rabs r <= 0).
    { intros x y r Hxy E. destruct (Nat.eqb_spec x 3), (Nat.eqb_spec y 1); cbn [andb] in E;
        try (exfalso; lia); injection E as E; subst r; rewrite Rabs_R0; lra. }
    split; apply forallb_forall; intros k Hk; apply check_vals_spec; intros r Hr;
      apply in_map_iff in Hr; destruct Hr as (j & Ej & Ij); clear Ij; apply Z in Ej; try exact Ej.
    + right. destruct Hd as [E|[E|[E|[]]]]; subst d; cbn [d_loc d_n fst snd] in Hk |- *;
        rewrite R4 in Hk; destruct Hk as [Hk|[Hk|[]]]; lia.
    + left. destruct Hd as [E|[E|[E|[]]]]; subst d; cbn [d_loc d_n fst snd] in Hk |- *;
        rewrite ?R1, ?R2, ?R3 in Hk; cbn [In] in Hk; lia.
  - exists (mkDec (3, 0) (3, 8))%nat. split; [cbn; tauto|]. split; reflexivity.
Qed.
Print Assumptions C36_decomposition_refuted.
Example C36_nonvacuous :
  let ds := [mkDec (0, 0) (4, 8); mkDec (4, 0) (4, 8)]%nat in
  let n := (4, 4)%nat in
  (0 < fst n)%nat /\ (0 < snd n)%nat
  /\ (forall d, In d ds -> (0 < fst (d_n d))%nat /\ (0 < snd (d_n d))%nat)
  /\ (forall x y, (x < fst n)%nat -> (y < snd n)%nat -> exists d, In d ds /\
     (fst (d_loc d) <= x < fst (d_loc d) + fst (d_n d))%nat
     /\ (snd (d_loc d) <= y < snd (d_loc d) + snd (d_n d))%nat)
  /\ (forall d, In d ds -> ~ (S (fst (d_loc d)) = fst n /\ 2 <= fst n)%nat
                     /\ ~ (S (snd (d_loc d)) = snd n /\ 2 <= snd n)%nat)
  /\ rim n 2 3 /\ ~ rim n 2 1.
Proof.
  intros ds n. split; [cbn; lia|]. split; [cbn; lia|].
  split; [intros d [E|[E|[]]]; subst d; cbn; lia|].
  split. { intros x y Hx Hy. exists (mkDec (0, 0) (4, 8))%nat. cbn in *. split; [tauto|lia]. }
  split; [intros d [E|[E|[]]]; subst d; cbn; lia|].
  split; unfold rim; cbn; lia.
Qed.

(** ** C37 spawn_child keeps grid spacing *)
Theorem C37_spawn_child : forall a s n m, free_construct a = Ret s ->
  (0 < n)%nat -> (0 < m)%nat ->
  exists s', spawn_child s [n; m] = Ret s'
    /\ h_grid (f_hs s') = [n; m] /\ f_dom s' = [2 * n; 2 * m]%nat
    /\ h_young (f_hs s') = fa_young a
    /\ h_steps (f_hs s') = [spacing (fa_grid a) (fa_sizes a) 0; spacing (fa_grid a) (fa_sizes a) 1]
    /\ h_steps (f_hs s') = h_steps (f_hs s)
    /\ h_sizes (f_hs s') = [INR n * spacing (fa_grid a) (fa_sizes a) 0;
                             INR m * spacing (fa_grid a) (fa_sizes a) 1].
Proof.
  intros a s n m H Hn Hm. destruct (free_inv a s H) as (L & G & Dom & _).
  destruct (fa_grid a) as [|N [|M [|? ?]]] eqn:Eg; try discriminate.
  pose proof (g_pos _ _ G) as [P0 P1]. rewrite Eg in P0, P1. cbn in P0, P1.
  destruct (g_sz _ _ G ltac:(rewrite Eg; reflexivity)) as (Sx & Sy & Dx & Dy & _).
  assert (HH : exists lx ly px py, h_sizes (f_hs s) = [lx; ly] /\ h_steps (f_hs s) = [px; py]).
  { unfold free_construct in H.
    destruct (new_on _ (base_args a)) as [h|e] eqn:Q; [|discriminate]. cbn [bind] in H.
    destruct (Nat.eqb (dim h) 1); [discriminate|]. injection H as H. subst s. cbn [f_hs] in *.
    apply new_on_inv in Q. destruct Q as (_ & _ & _ & _ & _ & _ & h' & Q & E). subst h'.
    destruct (new_sizes _ _ Q) as (L1 & L2 & _). cbn [a_grid base_args] in L1, L2.
    rewrite Eg in L1, L2.
    destruct (h_sizes h) as [|lx [|ly [|? ?]]]; try discriminate.
    destruct (h_steps h) as [|px [|py [|? ?]]]; try discriminate.
    exists lx, ly, px, py. split; reflexivity. }
  destruct HH as (lx & ly & px & py & ES & EP).
  assert (Egr : h_grid (f_hs s) = [N; M]) by (rewrite (g_grid _ _ G); exact Eg).
  unfold sx, sy, dx, dy in Sx, Sy, Dx, Dy. rewrite ES in Sx, Sy. rewrite EP in Dx, Dy.
  cbn [nth] in Sx, Sy, Dx, Dy. rewrite Eg in Dx, Dy.
  unfold spawn_child. unfold dim. rewrite Egr. cbn [length Nat.ltb Nat.leb].
  set (ca := mkFargs [n; m] (h_young (f_hs s)) (child_sizes (f_hs s) [n; m]) None false).
  destruct (free_ok ca n m) as [s' H']; try assumption; try reflexivity; try discriminate.
  { cbn. unfold child_sizes. rewrite Egr, ES. discriminate. }
  exists s'. split; [exact H'|]. destruct (free_inv ca s' H') as (L' & G' & Dom' & _).
  assert (N1 : INR N <> 0) by (apply not_0_INR; lia). assert (N2 : INR M <> 0) by (apply not_0_INR; lia).
  assert (M1 : INR n <> 0) by (apply not_0_INR; lia). assert (M2 : INR m <> 0) by (apply not_0_INR; lia).
  assert (C0 := child_cell_size (f_hs s) n m N M lx ly 0 Egr ES ltac:(lia)).
  assert (C1 := child_cell_size (f_hs s) n m N M lx ly 1 Egr ES ltac:(lia)). cbn [nth] in C0, C1.
  destruct (g_sz _ _ G' ltac:(exact L')) as (Sx' & Sy' & Dx' & Dy' & _).
  change (fa_sizes ca) with (child_sizes (f_hs s) [n; m]) in *. change (fa_grid ca) with [n; m] in *.
  assert (S0 : spacing [n; m] (child_sizes (f_hs s) [n; m]) 0 = spacing [N; M] (fa_sizes a) 0).
  { unfold spacing. rewrite C0, <- Sx. cbn [nth]. field. auto. }
  assert (S1 : spacing [n; m] (child_sizes (f_hs s) [n; m]) 1 = spacing [N; M] (fa_sizes a) 1).
  { unfold spacing. rewrite C1, <- Sy. cbn [nth]. field. auto. }
  assert (HH' : exists lx ly px py, h_sizes (f_hs s') = [lx; ly] /\ h_steps (f_hs s') = [px; py]).
  { unfold free_construct in H'.
    destruct (new_on _ (base_args ca)) as [h|e] eqn:Q; [|discriminate]. cbn [bind] in H'.
    destruct (Nat.eqb (dim h) 1); [discriminate|]. injection H' as H'. subst s'. cbn [f_hs] in *.
    apply new_on_inv in Q. destruct Q as (_ & _ & _ & _ & _ & _ & h' & Q & E). subst h'.
    destruct (new_sizes _ _ Q) as (L1 & L2 & _). cbn [a_grid base_args] in L1, L2.
    destruct (h_sizes h) as [|lx' [|ly' [|? ?]]]; try discriminate.
    destruct (h_steps h) as [|px' [|py' [|? ?]]]; try discriminate.
    exists lx', ly', px', py'. split; reflexivity. }
  destruct HH' as (lx' & ly' & px' & py' & ES' & EP').
  unfold sx, sy, dx, dy in Sx', Sy', Dx', Dy'. rewrite ES' in Sx', Sy'. rewrite EP' in Dx', Dy'.
  cbn [nth] in Sx', Sy', Dx', Dy'.
  split; [exact (g_grid _ _ G')|]. split; [exact Dom'|].
  split; [rewrite (g_young _ _ G'); exact (g_young _ _ G)|].
  split; [rewrite EP', Dx', Dy', S0, S1; reflexivity|].
  split; [rewrite EP', EP, Dx', Dy', Dx, Dy, S0, S1; reflexivity|].
  rewrite ES'. f_equal; [|f_equal].
  - rewrite Sx', C0, <- S0. unfold spacing. rewrite C0. cbn [nth]. field. auto.
  - rewrite Sy', C1, <- S1. unfold spacing. rewrite C1. cbn [nth]. field. auto.
Qed.
Print Assumptions C37_spawn_child.

(** The child therefore answers with the same influence coefficients as its
    parent. *)
Theorem C37_child_response : forall a s n m s' f, free_construct a = Ret s ->
  (0 < n)%nat -> (0 < m)%nat ->
  cell_size (fa_sizes a) 0 <> 0 -> cell_size (fa_sizes a) 1 <> 0 ->
  spawn_child s [n; m] = Ret s' ->
  exists u, free_disp s' (mkArr [n; m] f) false = Ret u
    /\ forall x y, on_grid [n; m] x y -> a_val u x y =
       - (/ point_area (fa_grid a) (fa_sizes a)) * Rsum2 n m (fun x' y' =>
            influence (fa_grid a) (fa_young a) (fa_sizes a) (offset x x') (offset y y') * f x' y').
Proof.
  intros a s n m s' f H Hn Hm Z0 Z1 Hs'.
  destruct (C37_spawn_child a s n m H Hn Hm) as (s2 & E2 & Q1 & Q2 & Q3 & Q4 & Q5 & Q6).
  rewrite Hs' in E2. injection E2 as E2. subst s2.
  destruct (free_inv a s H) as (L & G & Dom & _).
  pose proof (g_pos _ _ G) as [P0 P1].
  assert (Z0' := spacing_neq a 0 Z0 P0). assert (Z1' := spacing_neq a 1 Z1 P1).
  unfold spawn_child in Hs'. destruct (Nat.ltb _ _); [discriminate|].
  set (ca := mkFargs [n; m] (h_young (f_hs s)) (child_sizes (f_hs s) [n; m]) None false) in Hs'.
  destruct (free_inv ca s' Hs') as (L' & G' & _).
  destruct (g_sz _ _ G' L') as (Sx' & Sy' & Dx' & Dy' & A').
  unfold dx, dy in Dx', Dy'. rewrite Q4 in Dx', Dy'. cbn [nth] in Dx', Dy'.
  assert (M1 : INR n <> 0) by (apply not_0_INR; lia). assert (M2 : INR m <> 0) by (apply not_0_INR; lia).
  assert (N1 : INR (gx (fa_grid a)) <> 0) by (apply not_0_INR; lia).
  assert (N2 : INR (gy (fa_grid a)) <> 0) by (apply not_0_INR; lia).
  assert (SC0 : cell_size (fa_sizes ca) 0 = INR n * spacing (fa_grid a) (fa_sizes a) 0).
  { rewrite <- Sx'. unfold sx. rewrite Q6. reflexivity. }
  assert (SC1 : cell_size (fa_sizes ca) 1 = INR m * spacing (fa_grid a) (fa_sizes a) 1).
  { rewrite <- Sy'. unfold sy. rewrite Q6. reflexivity. }
  destruct (C33_free_convolution ca s' f false Hs') as (u & U1 & _ & U3).
  { rewrite SC0. apply Rmult_integral_contrapositive_currified; assumption. }
  { rewrite SC1. apply Rmult_integral_contrapositive_currified; assumption. }
  exists u. split; [exact U1|]. intros x y Hg. rewrite (U3 x y Hg).
  assert (PA : point_area (fa_grid ca) (fa_sizes ca) = point_area (fa_grid a) (fa_sizes a)).
  { unfold point_area. rewrite L', L. cbn [Nat.eqb]. rewrite SC0, SC1. cbn [fa_grid ca gx gy nth].
    unfold spacing. fold (gx (fa_grid a)) (gy (fa_grid a)). field. auto. }
  rewrite PA. f_equal. apply Rsum2_ext. intros x' y' _ _. f_equal. unfold influence.
  rewrite <- Dx', <- Dy'. cbn [fa_young ca]. rewrite (g_young _ _ G). reflexivity.
Qed.
Print Assumptions C37_child_response.

(** A semi-periodic half-space passes neither its periodicity nor its number
    of images on: the child of a fully periodic one is not periodic along x. *)
Theorem C37_semi_child_refuted : exists s s', semi_construct shB = Ret s
  /\ f_dom s = [3; 2]%nat /\ semi_spawn_child s [3; 2]%nat = Ret s'
  /\ f_dom s' = [5; 2]%nat.
Proof.
  destruct sh_ok as (_ & [s Hs] & _). exists s.
  destruct (semi_inv _ _ Hs) as (_ & G & Dom & _).
  unfold semi_spawn_child, dim. rewrite (g_grid _ _ G). cbn [shB sa_base fa_grid length Nat.ltb Nat.leb].
  match goal with |- context [semi_construct (mkSargs (mkFargs ?g (h_young ?h) ?z ?e ?c) ?p ?k)] =>
    destruct (semi_ok (mkSargs (mkFargs g (h_young h) z e c) p k) 3 2) as [s' Hs'] end;
    try reflexivity; try lia; try discriminate.
  - cbn. unfold child_sizes. rewrite (g_grid _ _ G). cbn [shB sa_base fa_grid].
    assert (L : length (h_sizes (f_hs s)) = 2%nat).
    { unfold semi_construct in Hs. cbn [shB sa_base fa_grid] in Hs.
      destruct (new_on _ _) as [h|e] eqn:Q; [|discriminate]. cbn [bind] in Hs.
      injection Hs as Hs. subst s. cbn [f_hs].
      apply new_on_inv in Q. destruct Q as (_ & _ & _ & _ & _ & _ & h' & Q & E). subst h'.
      destruct (new_sizes _ _ Q) as (L1 & _). exact L1. }
    destruct (h_sizes (f_hs s)) as [|? [|? [|? ?]]]; discriminate.
  - exists s'. split; [exact Hs|]. split; [exact Dom|]. split; [exact Hs'|].
    destruct (semi_inv _ _ Hs') as (_ & _ & Dom' & _). exact Dom'.
Qed.
Print Assumptions C37_semi_child_refuted.
Example C37_nonvacuous : (exists s, free_construct fhA = Ret s) /\ (0 < 7)%nat
  /\ (exists s s', free_construct fhA = Ret s /\ spawn_child s [7; 1]%nat = Ret s')
  /\ cell_size (fa_sizes fhA) 0 <> 0 /\ cell_size (fa_sizes fhA) 1 <> 0.
Proof.
  split; [exact (proj1 fh_ok)|]. split; [lia|]. split.
  - destruct (proj1 fh_ok) as [s H].
    destruct (C37_spawn_child fhA s 7 1 H ltac:(lia) ltac:(lia)) as (s' & H' & _).
    exists s, s'. split; assumption.
  - cbn. lra.
Qed.

(** ** C38 Semi-periodic half-space is the image-summed convolution *)
Theorem C38_semi_convolution : forall a s f pad, semi_construct a = Ret s ->
  cell_size (fa_sizes (sa_base a)) 0 <> 0 -> cell_size (fa_sizes (sa_base a)) 1 <> 0 ->
  let b := sa_base a in
  let g := fa_grid b in
  exists u, free_disp s (mkArr g f) pad = Ret u
    /\ (pad = false -> a_shape u = g)
    /\ same_on g (a_val u) (fun x y =>
         - (/ point_area g (fa_sizes b)) * Rsum2 (gx g) (gy g) (fun x' y' =>
             image_influence g (fa_young b) (fa_sizes b) (sa_per a) (sa_images a)
               (image_offset (fst (sa_per a)) (gx g) x x')
               (image_offset (snd (sa_per a)) (gy g) y y') * f x' y')).
Proof.
  intros a s f pad H Z0 Z1 b g. pose proof (semi_direct a s H (conj Z0 Z1)) as D.
  destruct (semi_inv a s H) as (L & G & Dom & _).
  destruct (free_disp_direct s _ _ _ D f pad) as (u & U1 & U2 & U3).
  exists u. split; [exact U1|]. split; [intros E; rewrite U2, E; reflexivity|].
  destruct (g_sz _ _ G L) as (_ & _ & _ & _ & A). rewrite A in U3. exact U3.
Qed.
Print Assumptions C38_semi_convolution.

Theorem C38_semi_shift : forall a s f c, semi_construct a = Ret s ->
  cell_size (fa_sizes (sa_base a)) 0 <> 0 -> cell_size (fa_sizes (sa_base a)) 1 <> 0 ->
  let g := fa_grid (sa_base a) in
  exists u ux uy, free_disp s (mkArr g f) false = Ret u
    /\ free_disp s (mkArr g (translate_x g c f)) false = Ret ux
    /\ free_disp s (mkArr g (translate_y g c f)) false = Ret uy
    /\ (fst (sa_per a) = true -> same_on g (a_val ux) (translate_x g c (a_val u)))
    /\ (snd (sa_per a) = true -> same_on g (a_val uy) (translate_y g c (a_val u))).
Proof.
  intros a s f c H Z0 Z1 g. pose proof (semi_direct a s H (conj Z0 Z1)) as D.
  pose proof (ds_pos _ _ _ _ D) as [P0 P1]. fold g in P0, P1.
  destruct (free_disp_direct s _ _ _ D f false) as (u & U1 & _ & U3).
  destruct (free_disp_direct s _ _ _ D (translate_x g c f) false) as (ux & X1 & _ & X3).
  destruct (free_disp_direct s _ _ _ D (translate_y g c f) false) as (uy & Y1 & _ & Y3).
  exists u, ux, uy. split; [exact U1|]. split; [exact X1|]. split; [exact Y1|]. split.
  - intros E x y [Hx Hy]. unfold translate_x at 1. rewrite X3 by (split; assumption).
    rewrite U3 by (split; [apply Nat.mod_upper_bound; apply Nat.neq_0_lt_0; exact P0|assumption]).
    f_equal. apply direct_shift_x; assumption.
  - intros E x y [Hx Hy]. unfold translate_y at 1. rewrite Y3 by (split; assumption).
    rewrite U3 by (split; [assumption|apply Nat.mod_upper_bound; apply Nat.neq_0_lt_0; exact P1]).
    f_equal. apply direct_shift_y; assumption.
Qed.
Print Assumptions C38_semi_shift.

Theorem C38_no_period_is_free : forall a b s t f, free_construct a = Ret s ->
  semi_construct b = Ret t -> sa_per b = (false, false) ->
  fa_grid (sa_base b) = fa_grid a -> fa_young (sa_base b) = fa_young a ->
  fa_sizes (sa_base b) = fa_sizes a ->
  cell_size (fa_sizes a) 0 <> 0 -> cell_size (fa_sizes a) 1 <> 0 ->
  exists u v, free_disp s (mkArr (fa_grid a) f) false = Ret u
    /\ free_disp t (mkArr (fa_grid a) f) false = Ret v
    /\ same_on (fa_grid a) (a_val u) (a_val v).
Proof.
  intros a b s t f H H' Ep Eg Ey Es Z0 Z1.
  destruct (C33_free_convolution a s f false H Z0 Z1) as (u & U1 & _ & U3).
  destruct (C38_semi_convolution b t f false H') as (v & V1 & _ & V3); try (rewrite Es; assumption).
  rewrite Ep, Eg, Ey, Es in V3. rewrite Eg in V1.
  exists u, v. split; [exact U1|]. split; [exact V1|]. intros x y G.
  rewrite (U3 x y G), (V3 x y G). f_equal. apply Rsum2_ext. intros x' y' _ _. f_equal.
  cbn [fst snd image_offset]. unfold image_influence, image_sum. cbn [fst snd].
  rewrite !Z.mul_0_l, !Z.add_0_r. reflexivity.
Qed.
Print Assumptions C38_no_period_is_free.

Theorem C38_semi_self_adjoint_positive : forall a s f f', semi_construct a = Ret s ->
  cell_size (fa_sizes (sa_base a)) 0 <> 0 -> cell_size (fa_sizes (sa_base a)) 1 <> 0 ->
  let b := sa_base a in
  (exists u u', free_disp s (mkArr (fa_grid b) f) false = Ret u
    /\ free_disp s (mkArr (fa_grid b) f') false = Ret u'
    /\ inner (fa_grid b) f' (a_val u) = inner (fa_grid b) f (a_val u'))
  /\ (0 < fa_young b -> 0 < cell_size (fa_sizes b) 0 -> 0 < cell_size (fa_sizes b) 1 ->
      forall i j, 0 < image_influence (fa_grid b) (fa_young b) (fa_sizes b) (sa_per a) (sa_images a) i j).
Proof.
  intros a s f f' H Z0 Z1 b. pose proof (semi_direct a s H (conj Z0 Z1)) as D.
  destruct (ds_pos _ _ _ _ D) as [P0 P1]. split.
  - apply (self_adjoint_of_direct _ _ _ _ D). intros i j.
    apply image_influence_even; apply spacing_neq; assumption.
  - intros HE C0 C1 i j. apply image_influence_pos; [exact HE| |];
      unfold spacing; apply Rdiv_lt_0_compat; try assumption; apply lt_0_INR; assumption.
Qed.
Print Assumptions C38_semi_self_adjoint_positive.
Example C38_nonvacuous :
  ((exists s, semi_construct shA = Ret s) /\ (exists s, semi_construct shB = Ret s)
   /\ (exists s, semi_construct shC = Ret s))
  /\ fst (sa_per shA) = true /\ snd (sa_per shB) = true
  /\ ((exists s, free_construct fhA = Ret s) /\ sa_per shC = (false, false)
      /\ fa_grid (sa_base shC) = fa_grid fhA /\ fa_young (sa_base shC) = fa_young fhA
      /\ fa_sizes (sa_base shC) = fa_sizes fhA)
  /\ 0 < cell_size (fa_sizes fhA) 0 /\ 0 < cell_size (fa_sizes fhA) 1 /\ 0 < fa_young fhA.
Proof.
  split; [exact sh_ok|]. split; [reflexivity|]. split; [reflexivity|].
  split; [split; [exact (proj1 fh_ok)|repeat split]|]. cbn. lra.
Qed.

(** ** C39 get_G_real centres the influence function *)
Theorem C39_get_G_real : forall a s i j, semi_construct a = Ret s ->
  cell_size (fa_sizes (sa_base a)) 0 <> 0 -> cell_size (fa_sizes (sa_base a)) 1 <> 0 ->
  let b := sa_base a in
  let N := nth 0 (f_dom s) 0%nat in
  let M := nth 1 (f_dom s) 0%nat in
  (i < N)%nat -> (j < M)%nat ->
  get_G_real s (sa_per a) i j
    = image_influence (fa_grid b) (fa_young b) (fa_sizes b) (sa_per a) (sa_images a)
        (Z.of_nat i - Z.of_nat (N / 2)) (Z.of_nat j - Z.of_nat (M / 2))
  /\ get_G_real s (sa_per a) i j
     = f_real s ((i + (N - N / 2)) mod N)%nat ((j + (M - M / 2)) mod M)%nat
  /\ fst (get_G_real_slices s (sa_per a)) i = get_G_real s (sa_per a) i (M / 2)%nat
  /\ snd (get_G_real_slices s (sa_per a)) j = get_G_real s (sa_per a) (N / 2)%nat j.
Proof.
  intros a s i j H Z0 Z1 b N M Hi Hj.
  destruct (semi_inv a s H) as (L & G & Dom & R & _).
  destruct G as [G1 G2 [P1 P2] G3 G4 G5 G6 G7]. fold b in L, Dom, G1, G2, P1, P2, G3, G4, G5, G6, Z0, Z1.
  destruct (G6 L) as (S1 & S2 & S3 & S4 & S5).
  assert (EN : semi_points (fst (sa_per a)) (nx (f_hs s)) = N) by (unfold N; rewrite Dom, G4; reflexivity).
  assert (EM : semi_points (snd (sa_per a)) (ny (f_hs s)) = M) by (unfold M; rewrite Dom, G5; reflexivity).
  unfold get_G_real_slices, get_G_real. rewrite EN, EM.
  destruct (argsort_fftindex N i Hi) as [A1 A2]. destruct (argsort_fftindex M j Hj) as [B1 B2].
  split; [|split; [rewrite A1, B1; reflexivity|split; reflexivity]].
  rewrite R. unfold semi_real, image_influence.
  rewrite Lsum_images. apply image_sum_ext. intros ix.
  rewrite Lsum_images. apply image_sum_ext. intros iy.
  unfold semi_inner. unfold fftfreq.
  assert (NN : nth 0 (f_dom s) 1%nat = N) by (unfold N; rewrite Dom; reflexivity).
  assert (MM : nth 1 (f_dom s) 1%nat = M) by (unfold M; rewrite Dom; reflexivity).
  rewrite NN, MM, A2, B2.
  rewrite influence_pixel by (apply spacing_neq; assumption).
  rewrite G3, G4, G5, S1, S2, S3, S4.
  assert (N1 : INR N <> 0) by (apply not_0_INR; lia).
  assert (N2 : INR M <> 0) by (apply not_0_INR; lia).
  assert (M1 : INR (gx (fa_grid b)) <> 0) by (apply not_0_INR; lia).
  assert (M2 : INR (gy (fa_grid b)) <> 0) by (apply not_0_INR; lia).
  f_equal.
  - rewrite (plus_IZR _ (ix * _)), mult_IZR, <- INR_IZR_INZ. unfold spacing. fold (gx (fa_grid b)).
    field. auto.
  - rewrite (plus_IZR _ (iy * _)), mult_IZR, <- INR_IZR_INZ. unfold spacing. fold (gy (fa_grid b)).
    field. auto.
Qed.
Print Assumptions C39_get_G_real.
Example C39_nonvacuous : exists s, semi_construct shA = Ret s
  /\ cell_size (fa_sizes (sa_base shA)) 0 <> 0 /\ cell_size (fa_sizes (sa_base shA)) 1 <> 0
  /\ (1 < nth 0 (f_dom s) 0)%nat /\ (2 < nth 1 (f_dom s) 0)%nat.
Proof.
  destruct sh_ok as ([s Hs] & _). exists s. split; [exact Hs|].
  destruct (semi_inv _ _ Hs) as (_ & _ & Dom & _). rewrite Dom. cbn. split; [lra|]. split; [lra|lia].
Qed.
