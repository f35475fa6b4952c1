(** * C101 Symmetries of the free and semi-periodic half-spaces *)
From Coq Require Import Reals ZArith Lia Lra List Arith Bool.
From Coquelicot Require Import Complex.
From Verif Require Import Py FFT_Base HalfSpace_Spec HalfSpace_Model HalfSpace_Proofs
  Free_Model Free_Spec Free_Proofs Free_Results Systems_Model Systems_Spec Systems_Proofs
  Free_Energy Prop_Free Prop_FreeEnergy FreeMotion_Spec.
From Coq Require Import List.
Import ListNotations.
Local Open Scope R_scope.

Lemma Rsum_placed : forall n N i h, (i + n <= N)%nat ->
  Rsum N (fun x => if andb (Nat.leb i x) (Nat.ltb x (i + n)) then h x else 0) = Rsum n (fun x => h (i + x)%nat).
Proof.
  intros n N i h L. replace N with (i + (n + (N - i - n)))%nat by lia. rewrite Rsum_split.
  rewrite (Rsum_ext i _ (fun _ => 0)).
  2:{ intros x Hx. destruct (Nat.leb_spec i x); [lia|reflexivity]. }
  rewrite Rsum_0, Rplus_0_l, Rsum_split, (Rsum_ext (N - i - n) _ (fun _ => 0)).
  2:{ intros x Hx. destruct (Nat.leb_spec i (i + (n + x))); [|lia]. destruct (Nat.ltb_spec (i + (n + x)) (i + n)); [lia|reflexivity]. }
  rewrite Rsum_0, Rplus_0_r. apply Rsum_ext. intros x Hx.
  destruct (Nat.leb_spec i (i + x)); [|lia]. destruct (Nat.ltb_spec (i + x) (i + n)); [reflexivity|lia].
Qed.
Lemma Rsum2_placed : forall n m N M i j p (K : nat -> nat -> R), (i + n <= N)%nat -> (j + m <= M)%nat ->
  Rsum2 N M (fun x y => K x y * placed n m i j p x y) = Rsum2 n m (fun x y => K (i + x)%nat (j + y)%nat * p x y).
Proof.
  intros n m N M i j p K L1 L2. unfold Rsum2.
  transitivity (Rsum N (fun x => if andb (Nat.leb i x) (Nat.ltb x (i + n)) then Rsum m (fun y => K x (j + y)%nat * p (x - i)%nat y) else 0)).
  - apply Rsum_ext. intros x Hx. unfold placed. destruct (andb (Nat.leb i x) (Nat.ltb x (i + n))); cbn [andb].
    + rewrite (Rsum_ext M _ (fun y => if andb (Nat.leb j y) (Nat.ltb y (j + m)) then K x y * p (x - i)%nat (y - j)%nat else 0))
        by (intros y _; destruct (andb (Nat.leb j y) (Nat.ltb y (j + m))); ring).
      rewrite Rsum_placed by exact L2. apply Rsum_ext. intros y Hy. do 2 f_equal. lia.
    + transitivity (Rsum M (fun _ => 0)); [apply Rsum_ext; intros; ring|apply Rsum_0].
  - rewrite Rsum_placed by exact L1. apply Rsum_ext. intros x Hx. apply Rsum_ext. intros y Hy. do 2 f_equal. lia.
Qed.

(** ** C101 The displacements belong to the forces, not to the grid

    One pattern of forces, at any place of two grids with the same spacing. *)
Theorem C101_placed : forall a a' s s' n m i j i' j' p, free_construct a = Ret s -> free_construct a' = Ret s' ->
  sizes_ok a -> sizes_ok a' -> fa_young a' = fa_young a ->
  (forall k, (k < 2)%nat -> spacing (fa_grid a') (fa_sizes a') k = spacing (fa_grid a) (fa_sizes a) k) ->
  (i + n <= gx (fa_grid a))%nat -> (j + m <= gy (fa_grid a))%nat -> (i' + n <= gx (fa_grid a'))%nat -> (j' + m <= gy (fa_grid a'))%nat ->
  exists u u', free_disp s (mkArr (fa_grid a) (placed n m i j p)) false = Ret u
  /\ free_disp s' (mkArr (fa_grid a') (placed n m i' j' p)) false = Ret u'
  /\ forall x y x' y', on_grid (fa_grid a) x y -> on_grid (fa_grid a') x' y' ->
     offset x i = offset x' i' -> offset y j = offset y' j' -> a_val u' x' y' = a_val u x y.
Proof.
  intros a a' s s' n m i j i' j' p H H' SO SO' EY SP B1 B2 B3 B4.
  destruct (C33_free_convolution a s (placed n m i j p) false H (proj1 SO) (proj2 SO)) as (u & U1 & _ & U).
  destruct (C33_free_convolution a' s' (placed n m i' j' p) false H' (proj1 SO') (proj2 SO')) as (u' & U1' & _ & U').
  exists u, u'. split; [exact U1|]. split; [exact U1'|]. intros x y x' y' G G' EX EYY. rewrite (U x y G), (U' x' y' G').
  rewrite !Rsum2_placed by assumption.
  destruct (free_inv a s H) as (L & GA & _). destruct (free_inv a' s' H') as (L' & GA' & _).
  pose proof (g_pos _ _ GA) as [P1 P2]. pose proof (g_pos _ _ GA') as [P1' P2'].
  assert (AR : forall b, List.length (fa_grid b) = 2%nat -> (0 < gx (fa_grid b))%nat -> (0 < gy (fa_grid b))%nat ->
    point_area (fa_grid b) (fa_sizes b) = spacing (fa_grid b) (fa_sizes b) 0 * spacing (fa_grid b) (fa_sizes b) 1).
  { intros b LB Q1 Q2. unfold point_area, spacing. rewrite LB. cbn [Nat.eqb]. fold (gx (fa_grid b)). fold (gy (fa_grid b)).
    field. split; apply not_0_INR; lia. }
  rewrite !AR, !SP by (assumption || lia). f_equal. apply Rsum2_ext. intros X Y HX HY. f_equal. unfold influence.
  rewrite !SP, EY by lia. unfold offset in *. f_equal; do 2 f_equal; lia.
Qed.
Print Assumptions C101_placed.

(** ** C101 Mirror images *)
Lemma direct_facts : forall sb s, padded_space sb s -> sb_disp sb = (fun f => free_disp s f false)
  /\ exists per K, direct_sub s (sb_grid sb) per K /\ forall i j, K (- i)%Z j = K i j /\ K i (- j)%Z = K i j.
Proof.
  intros sb s [(a & H & SO & ->)|(a & H & SO & ->)]; (split; [reflexivity|]).
  - pose proof (free_direct a s H SO) as D. destruct (free_inv a s H) as (L & G & _). pose proof (g_pos _ _ G) as [P1 P2].
    exists (false, false), (influence (fa_grid a) (fa_young a) (fa_sizes a)). cbn [free sb_grid]. rewrite (g_grid _ _ G). split; [exact D|].
    intros i j. apply influence_even; apply spacing_neq; try assumption; apply SO.
  - pose proof (semi_direct a s H SO) as D. destruct (semi_inv a s H) as (L & G & _). pose proof (g_pos _ _ G) as [P1 P2].
    eexists _, _. cbn [semi sb_grid]. rewrite (g_grid _ _ G). split; [exact D|].
    intros i j. apply image_influence_even; apply spacing_neq; try assumption; apply SO.
Qed.
Lemma wrap_opp : forall n d, (0 < n)%nat -> wrap n (- d) = (- wrap n d)%Z \/ wrap n (- d) = wrap n d.
Proof.
  intros n d P. set (w := wrap n d). set (h := Z.of_nat (n / 2)).
  assert (W : (- h <= w < Z.of_nat n - h)%Z).
  { unfold w, wrap. fold h. pose proof (Z.mod_pos_bound (d + h) (Z.of_nat n) ltac:(lia)). lia. }
  assert (D : exists k, d = (w + k * Z.of_nat n)%Z).
  { exists ((d + h) / Z.of_nat n)%Z. unfold w, wrap. fold h. pose proof (Z.div_mod (d + h) (Z.of_nat n) ltac:(lia)). lia. }
  destruct D as [k D]. replace (- d)%Z with (- w + (- k) * Z.of_nat n)%Z by lia. rewrite wrap_cong by exact P.
  assert (HB : (2 * h <= Z.of_nat n < 2 * h + 2)%Z).
  { unfold h. pose proof (Nat.div_mod n 2 ltac:(lia)). pose proof (Nat.mod_upper_bound n 2 ltac:(lia)). lia. }
  destruct (Z_lt_le_dec (- w) (Z.of_nat n - h)) as [Q|Q].
  - left. apply wrap_small; [exact P|]. fold h. lia.
  - right. assert (w = - h)%Z by lia. assert (Z.of_nat n = 2 * h)%Z by lia.
    replace (- w)%Z with (- h + 1 * Z.of_nat n)%Z by lia. rewrite wrap_cong by exact P. rewrite wrap_small; [lia|exact P|]. fold h. lia.
Qed.
Lemma offset_mirror : forall per n x x', (x < n)%nat -> (x' < n)%nat ->
  image_offset per n (n - 1 - x) (n - 1 - x') = (- image_offset per n x x')%Z
  \/ image_offset per n (n - 1 - x) (n - 1 - x') = image_offset per n x x'.
Proof.
  intros per n x x' X X'. unfold image_offset. replace (offset (n - 1 - x) (n - 1 - x')) with (- offset x x')%Z by (unfold offset; lia).
  destruct per; [apply wrap_opp; lia|left; reflexivity].
Qed.
Lemma Rsum_mirror : forall n f, Rsum n (fun i => f (n - 1 - i)%nat) = Rsum n f.
Proof. intros n g. symmetry. apply RtoC_inj. rewrite !Csum_RtoC. apply Csum_rev. Qed.
Theorem C101_mirror : forall sb s f, padded_space sb s ->
  exists u v w, sb_disp sb (mkArr (sb_grid sb) f) = Ret u
  /\ sb_disp sb (mkArr (sb_grid sb) (mirror_x (sb_grid sb) f)) = Ret v /\ same_on (sb_grid sb) (a_val v) (mirror_x (sb_grid sb) (a_val u))
  /\ sb_disp sb (mkArr (sb_grid sb) (mirror_y (sb_grid sb) f)) = Ret w /\ same_on (sb_grid sb) (a_val w) (mirror_y (sb_grid sb) (a_val u)).
Proof.
  intros sb s f H. destruct (direct_facts sb s H) as (-> & per & K & D & EV). set (g := sb_grid sb) in *.
  destruct (free_disp_direct s g per K D f false) as (u & U1 & _ & U).
  destruct (free_disp_direct s g per K D (mirror_x g f) false) as (v & V1 & _ & V).
  destruct (free_disp_direct s g per K D (mirror_y g f) false) as (w & W1 & _ & W).
  exists u, v, w. split; [exact U1|]. split; [exact V1|]. split; [|split; [exact W1|]].
  - intros x y [X Y]. rewrite (V x y (conj X Y)). unfold mirror_x at 2. rewrite U by (split; [lia|exact Y]). f_equal. unfold direct, Rsum2.
    rewrite <- (Rsum_mirror (gx g)). apply Rsum_ext. intros x' X'. apply Rsum_ext. intros y' Y'. unfold mirror_x.
    replace (gx g - 1 - (gx g - 1 - x'))%nat with x' by lia. f_equal.
    destruct (offset_mirror (fst per) (gx g) (gx g - 1 - x) x' ltac:(lia) X') as [E|E];
      replace (gx g - 1 - (gx g - 1 - x))%nat with x in E by lia; rewrite E; [apply EV|reflexivity].
  - intros x y [X Y]. rewrite (W x y (conj X Y)). unfold mirror_y at 2. rewrite U by (split; [exact X|lia]). f_equal. unfold direct, Rsum2.
    apply Rsum_ext. intros x' X'. rewrite <- (Rsum_mirror (gy g)). apply Rsum_ext. intros y' Y'. unfold mirror_y.
    replace (gy g - 1 - (gy g - 1 - y'))%nat with y' by lia. f_equal.
    destruct (offset_mirror (snd per) (gy g) (gy g - 1 - y) y' ltac:(lia) Y') as [E|E];
      replace (gy g - 1 - (gy g - 1 - y))%nat with y in E by lia; rewrite E; [apply EV|reflexivity].
Qed.
Print Assumptions C101_mirror.

(** ** C101 Exchange of the axes *)
Lemma love_exchange : forall E a b x y, love E b a y x = love E a b x y.
Proof.
  intros. assert (A : forall u v, antider u v = antider v u).
  { intros u v. unfold antider. rewrite (Rplus_comm (v * v)). ring. }
  unfold love. rewrite !(A (y + b)), !(A (y - b)). ring.
Qed.
Lemma influence_exchange : forall n m lx ly E i j, influence [m; n] E [ly; lx] j i = influence [n; m] E [lx; ly] i j.
Proof. intros. unfold influence, spacing, cell_size. cbn. apply love_exchange. Qed.
Lemma image_sum_swap : forall p q k f, image_sum p k (fun i => image_sum q k (fun j => f i j)) = image_sum q k (fun j => image_sum p k (fun i => f i j)).
Proof. intros [|] [|] k f; unfold image_sum, sum_sym; try reflexivity. apply Rsum_swap. Qed.
Lemma image_exchange : forall n m lx ly E p q k i j,
  image_influence [m; n] E [ly; lx] (q, p) k j i = image_influence [n; m] E [lx; ly] (p, q) k i j.
Proof.
  intros. unfold image_influence. cbn [fst snd]. rewrite image_sum_swap. apply image_sum_ext. intros ix. apply image_sum_ext. intros iy.
  apply influence_exchange.
Qed.
Lemma direct_exchange : forall s s' n m p q K K', direct_sub s [n; m] (p, q) K -> direct_sub s' [m; n] (q, p) K' ->
  area_per_pt (f_hs s') = area_per_pt (f_hs s) -> (forall i j, K' j i = K i j) -> forall f,
  exists u u', free_disp s (mkArr [n; m] f) false = Ret u /\ free_disp s' (mkArr [m; n] (transpose f)) false = Ret u'
  /\ same_on [m; n] (a_val u') (transpose (a_val u)).
Proof.
  intros s s' n m p q K K' D D' AR EK f.
  destruct (free_disp_direct s _ _ _ D f false) as (u & U1 & _ & U).
  destruct (free_disp_direct s' _ _ _ D' (transpose f) false) as (u' & U1' & _ & U').
  exists u, u'. split; [exact U1|]. split; [exact U1'|]. intros x y [X Y]. rewrite (U' x y (conj X Y)). unfold transpose at 2.
  rewrite (U y x (conj Y X)), AR. f_equal. unfold direct, Rsum2. cbn [gx gy nth fst snd]. rewrite Rsum_swap. apply Rsum_ext. intros x' X'.
  apply Rsum_ext. intros y' Y'. rewrite EK. reflexivity.
Qed.
Theorem C101_exchange : forall a s n m lx ly f, free_construct a = Ret s -> fa_grid a = [n; m] -> fa_sizes a = [lx; ly] -> lx <> 0 -> ly <> 0 ->
  exists s', free_construct (mkFargs [m; n] (fa_young a) [ly; lx] (option_map (@rev nat) (fa_engine a)) (fa_check a)) = Ret s'
  /\ exists u u', free_disp s (mkArr [n; m] f) false = Ret u /\ free_disp s' (mkArr [m; n] (transpose f)) false = Ret u'
  /\ same_on [m; n] (a_val u') (transpose (a_val u)).
Proof.
  intros a s n m lx ly f H EG ES NX NY. destruct (free_inv a s H) as (L & G & _). pose proof (g_pos _ _ G) as [P1 P2]. rewrite EG in P1, P2. cbn in P1, P2.
  assert (SO : sizes_ok a) by (unfold sizes_ok; rewrite ES; cbn; split; assumption).
  set (a' := mkFargs [m; n] (fa_young a) [ly; lx] (option_map (@rev nat) (fa_engine a)) (fa_check a)).
  assert (ENG : forall gg, fa_engine a = Some gg -> gg = [2 * n; 2 * m]%nat).
  { intros gg EE. unfold free_construct, new_on in H. cbn [base_args a_engine a_grid a_q0 a_thick a_sizes a_poisson] in H. rewrite EE, EG, ES in H.
    cbn [List.length Nat.eqb orb negb] in H. destruct (extend_sizes _ _); [|discriminate]. cbn [bind] in H. destruct (compute_steps _ _); [|discriminate]. cbn [bind] in H.
    destruct (Req_bool _ _); [discriminate|]. destruct (shape_eqb gg _) eqn:Q; [|discriminate]. apply shape_eqb_spec in Q. rewrite Q. reflexivity. }
  destruct (free_ok a' m n) as [s' H']; try reflexivity; try assumption; try discriminate.
  { intros gg EE. cbn [a' fa_engine] in EE. destruct (fa_engine a) as [g0|]; [|discriminate]. injection EE as <-. rewrite (ENG g0 eq_refl). reflexivity. }
  exists s'. split; [exact H'|].
  assert (SO' : sizes_ok a') by (unfold sizes_ok; cbn; split; assumption).
  pose proof (free_direct a s H SO) as D. pose proof (free_direct a' s' H' SO') as D'. rewrite EG, ES in D. cbn [a' fa_grid fa_young fa_sizes] in D'.
  destruct (free_inv a' s' H') as (L' & G' & _).
  destruct (g_sz _ _ G L) as (_ & _ & _ & _ & A). destruct (g_sz _ _ G' L') as (_ & _ & _ & _ & A').
  apply (direct_exchange s s' n m false false _ _ D D').
  - rewrite A, A', EG, ES. unfold point_area, cell_size. cbn. unfold Rdiv. rewrite !Rinv_mult. ring.
  - intros i j. apply influence_exchange.
Qed.
Print Assumptions C101_exchange.
Theorem C101_semi_exchange : forall a b s s' n m lx ly p q k f, semi_construct a = Ret s -> semi_construct b = Ret s' ->
  fa_grid (sa_base a) = [n; m] -> fa_sizes (sa_base a) = [lx; ly] -> lx <> 0 -> ly <> 0 ->
  fa_grid (sa_base b) = [m; n] -> fa_sizes (sa_base b) = [ly; lx] -> fa_young (sa_base b) = fa_young (sa_base a) ->
  sa_per a = (p, q) -> sa_per b = (q, p) -> sa_images a = k -> sa_images b = k ->
  exists u u', free_disp s (mkArr [n; m] f) false = Ret u /\ free_disp s' (mkArr [m; n] (transpose f)) false = Ret u'
  /\ same_on [m; n] (a_val u') (transpose (a_val u)).
Proof.
  intros a b s s' n m lx ly p q k f H H' EG ES NX NY EG' ES' EY EP EP' EK EK'.
  assert (SO : sizes_ok (sa_base a)) by (unfold sizes_ok; rewrite ES; cbn; split; assumption).
  assert (SO' : sizes_ok (sa_base b)) by (unfold sizes_ok; rewrite ES'; cbn; split; assumption).
  pose proof (semi_direct a s H SO) as D. pose proof (semi_direct b s' H' SO') as D'. cbv zeta in D, D'.
  destruct (semi_inv a s H) as (L & G & _). destruct (semi_inv b s' H') as (L' & G' & _).
  destruct (g_sz _ _ G L) as (_ & _ & _ & _ & A). destruct (g_sz _ _ G' L') as (_ & _ & _ & _ & A').
  rewrite EG, ES, EP, EK in D. rewrite EG', ES', EP', EK', EY in D'.
  apply (direct_exchange s s' n m p q _ _ D D').
  - rewrite A, A', EG, ES, EG', ES'. unfold point_area, cell_size. cbn. unfold Rdiv. rewrite !Rinv_mult. ring.
  - intros i j. apply image_exchange.
Qed.
Print Assumptions C101_semi_exchange.

Lemma Rsum2_sub : forall n m f g, Rsum2 n m f - Rsum2 n m g = Rsum2 n m (fun x y => f x y - g x y).
Proof.
  intros. replace (Rsum2 n m f - Rsum2 n m g) with (Rsum2 n m f + (-1) * Rsum2 n m g) by ring.
  rewrite <- Rsum2_scal, <- Rsum2_plus. apply Rsum2_ext. intros. ring.
Qed.
(** ** C101 Pushing more anywhere moves every point further *)
Theorem C101_monotone : forall sb s f f', padded_space sb s -> 0 < h_young (f_hs s) -> 0 < dx (f_hs s) -> 0 < dy (f_hs s) ->
  (forall x y, on_grid (sb_grid sb) x y -> f' x y <= f x y) -> (exists x y, on_grid (sb_grid sb) x y /\ f' x y < f x y) ->
  exists u u', sb_disp sb (mkArr (sb_grid sb) f) = Ret u /\ sb_disp sb (mkArr (sb_grid sb) f') = Ret u'
  /\ forall x y, on_grid (sb_grid sb) x y -> a_val u x y < a_val u' x y.
Proof.
  intros sb s f f' H EY SX SY LE (x0 & y0 & [X0 Y0] & LT).
  assert (X : sb_disp sb = (fun f => free_disp s f false)
    /\ exists per K, direct_sub s (sb_grid sb) per K /\ (forall i j, 0 < K i j) /\ 0 < area_per_pt (f_hs s)).
  { assert (AP : forall b, Free_Proofs.good b (f_hs s) -> List.length (fa_grid b) = 2%nat ->
      0 < spacing (fa_grid b) (fa_sizes b) 0 /\ 0 < spacing (fa_grid b) (fa_sizes b) 1 /\ 0 < area_per_pt (f_hs s)).
    { intros b G L. destruct (g_sz _ _ G L) as (_ & _ & E1 & E2 & A). pose proof (g_pos _ _ G) as [P1 P2].
      rewrite E1 in SX. rewrite E2 in SY.
      split; [exact SX|]. split; [exact SY|]. rewrite A. unfold point_area. rewrite ?L. cbn [Nat.eqb].
      replace (cell_size (fa_sizes b) 0 * cell_size (fa_sizes b) 1 / (INR (gx (fa_grid b)) * INR (gy (fa_grid b))))
        with (spacing (fa_grid b) (fa_sizes b) 0 * spacing (fa_grid b) (fa_sizes b) 1); [apply Rmult_lt_0_compat; assumption|].
      unfold spacing. fold (gx (fa_grid b)). fold (gy (fa_grid b)). field. split; apply not_0_INR; lia. }
    destruct H as [(a & H & SO & ->)|(a & H & SO & ->)]; (split; [reflexivity|]).
    - pose proof (free_direct a s H SO) as D. destruct (free_inv a s H) as (L & G & _).
      destruct (AP a G L) as (S0 & S1 & AR).
      eexists _, _. cbn [free sb_grid]. rewrite (g_grid _ _ G). split; [exact D|]. split; [|exact AR].
      intros i j. apply influence_pos; try assumption. rewrite <- (g_young _ _ G). exact EY.
    - pose proof (semi_direct a s H SO) as D. destruct (semi_inv a s H) as (L & G & _).
      destruct (AP _ G L) as (S0 & S1 & AR).
      eexists _, _. cbn [semi sb_grid]. rewrite (g_grid _ _ G). split; [exact D|]. split; [|exact AR].
      intros i j. apply image_influence_pos; try assumption. rewrite <- (g_young _ _ G). exact EY. }
  destruct X as (-> & per & K & D & KP & AR). set (g := sb_grid sb) in *.
  destruct (free_disp_direct s g per K D f false) as (u & U1 & _ & U).
  destruct (free_disp_direct s g per K D f' false) as (u' & U1' & _ & U').
  exists u, u'. split; [exact U1|]. split; [exact U1'|]. intros x y G. rewrite (U x y G), (U' x y G).
  assert (B : 0 < direct K g per f x y - direct K g per f' x y).
  { unfold direct. rewrite Rsum2_sub. apply (Rsum2_pos1 _ _ _ x0 y0 X0 Y0).
    - intros i j Hi Hj. pose proof (LE i j (conj Hi Hj)).
      pose proof (KP (image_offset (fst per) (gx g) x i) (image_offset (snd per) (gy g) y j)). nra.
    - pose proof (KP (image_offset (fst per) (gx g) x x0) (image_offset (snd per) (gy g) y y0)). nra. }
  pose proof (Rinv_0_lt_compat _ AR). nra.
Qed.
Print Assumptions C101_monotone.

(** ** Cases *)
(** A 2 x 1 pattern on 3 x 2 points and on 9 x 7 points of the same spacing; a
    half-space that is periodic along its first axis. *)
Definition wider := mkFargs [9; 7]%nat 2 [9; 35 / 2] None false.
Example C101_nonvacuous :
  (exists s s', free_construct fhA = Ret s /\ free_construct wider = Ret s' /\ sizes_ok fhA /\ sizes_ok wider /\ fa_young wider = fa_young fhA
     /\ (forall k, (k < 2)%nat -> spacing (fa_grid wider) (fa_sizes wider) k = spacing (fa_grid fhA) (fa_sizes fhA) k)
     /\ (1 + 2 <= gx (fa_grid fhA))%nat /\ (1 + 1 <= gy (fa_grid fhA))%nat /\ (5 + 2 <= gx (fa_grid wider))%nat /\ (4 + 1 <= gy (fa_grid wider))%nat)
  /\ (exists s, padded_space (semi s) s /\ sb_grid (semi s) = [3; 2]%nat /\ 0 < h_young (f_hs s) /\ 0 < dx (f_hs s) /\ 0 < dy (f_hs s))
  /\ exists s s', semi_construct shA = Ret s /\ semi_construct (mkSargs (mkFargs [2; 3]%nat 2 [5; 3] None true) (false, true) 2) = Ret s'.
Proof.
  assert (SO : sizes_ok fhA) by (unfold sizes_ok, cell_size; cbn; lra).
  split; [|split].
  - destruct fh_ok as [[s H] _]. destruct (free_ok wider 9 7) as [s' H']; try reflexivity; try lia; try discriminate.
    exists s, s'. split; [exact H|]. split; [exact H'|]. split; [exact SO|]. split; [unfold sizes_ok, cell_size; cbn; lra|]. split; [reflexivity|].
    split; [|cbn; lia]. intros [|[|k]] K; [| |lia]; unfold spacing, cell_size; cbn; lra.
  - destruct sh_ok as [[s H] _]. exists s. split; [right; exists shA; split; [exact H|]; split; [exact SO|reflexivity]|].
    destruct (semi_inv _ _ H) as (_ & G & _). cbn [semi sb_grid]. split; [rewrite (g_grid _ _ G); reflexivity|]. split; [rewrite (g_young _ _ G); cbn; lra|].
    destruct (g_sz _ _ G eq_refl) as (_ & _ & -> & -> & _). unfold spacing, cell_size. cbn. lra.
  - destruct sh_ok as [[s H] _]. destruct (semi_ok (mkSargs (mkFargs [2; 3]%nat 2 [5; 3] None true) (false, true) 2) 2 3) as [s' H'];
      try reflexivity; try lia; try discriminate. exists s, s'. split; assumption.
Qed.
