(** * The padded half-spaces on their computational grid: symmetry and energy *)
From Coq Require Import Reals ZArith Lia Lra List Arith Bool.
From Coquelicot Require Import Complex Coquelicot.
From Verif Require Import Py FFT_Base HalfSpace_Model HalfSpace_Spec HalfSpace_Proofs
  HalfSpace_Results HalfSpace_Results2 Pixel Free_Model Free_Spec Free_Proofs Free_Results
  Systems_Model Systems_Spec Systems_Proofs.
From Coq Require Import List.
Import ListNotations.
Local Open Scope R_scope.

(** The transform of an even array is real. *)
Lemma even_real : forall n m f, (0 < n)%nat -> (0 < m)%nat ->
  (forall x y, (x < n)%nat -> (y < m)%nat -> f (neg n x) (neg m y) = f x y) ->
  forall k l, Cconj (fft2 n m f k l) = fft2 n m f k l.
Proof.
  intros n m f P1 P2 E k l. unfold fft2, fftC. rewrite Csum2_conj.
  rewrite <- (Csum2_neg n m P1 P2 (fun x y => (RtoC (f x y) * Cconj (phase n m k l x y))%C)).
  apply Csum2_ext. intros x y Hx Hy. rewrite E by assumption. rewrite Cconj_mult, Cconj_RtoC. f_equal.
  unfold phase. rewrite !w_neg_r by lia. rewrite !Cconj_mult. f_equal. 
Qed.

(** ** The influence function is even on the whole computational grid *)
Lemma free_coord_neg : forall n i, (0 < n)%nat -> (i < 2 * n)%nat -> exists z : Z, free_coord n i = IZR z
  /\ (free_coord n (neg (2 * n) i) = IZR (- z) \/ free_coord n (neg (2 * n) i) = IZR z).
Proof.
  intros n i P H.
  assert (F : forall j, (j < 2 * n)%nat -> free_coord n j = IZR (if Nat.leb j n then Z.of_nat j else Z.of_nat j - 2 * Z.of_nat n)).
  { intros j J. unfold free_coord. destruct (Nat.leb j n); rewrite ?minus_IZR, ?mult_IZR, <- !INR_IZR_INZ; [reflexivity|ring]. }
  exists (if Nat.leb i n then Z.of_nat i else Z.of_nat i - 2 * Z.of_nat n)%Z. split; [apply F; exact H|].
  rewrite (F (neg (2 * n) i)) by (apply neg_lt; lia).
  destruct (Nat.eq_dec i 0) as [->|I]; [left; rewrite neg_0 by lia; reflexivity|].
  rewrite neg_pos by lia. destruct (Nat.eq_dec i n) as [->|J].
  - right. replace (2 * n - n)%nat with n by lia. reflexivity.
  - left. f_equal. destruct (Nat.leb_spec i n), (Nat.leb_spec (2 * n - i) n); lia.
Qed.

Definition even_on (s : fsub) : Prop := forall x y, (x < domx s)%nat -> (y < domy s)%nat ->
  f_real s (neg (domx s) x) (neg (domy s) y) = f_real s x y.

Lemma free_even : forall a s, free_construct a = Ret s -> sizes_ok a -> even_on s.
Proof.
  intros a s H [Z0 Z1] i j. destruct (free_inv a s H) as [L [G [D _]]].
  destruct G as [G1 G2 [P1 P2] G3 G4 G5 G6 G7]. destruct (G6 L) as (S1 & S2 & S3 & S4 & S5).
  assert (DX : domx s = (2 * gx (fa_grid a))%nat).
  { unfold domx, gx. rewrite D. destruct (fa_grid a) as [|? [|? ?]]; try discriminate; reflexivity. }
  assert (DY : domy s = (2 * gy (fa_grid a))%nat).
  { unfold domy, gy. rewrite D. destruct (fa_grid a) as [|? [|? ?]]; try discriminate; reflexivity. }
  assert (RR : forall i j, f_real s i j = pixel (h_young (f_hs s)) (dx (f_hs s) * 0.5) (dy (f_hs s) * 0.5)
          (free_coord (nx (f_hs s)) i * dx (f_hs s)) (free_coord (ny (f_hs s)) j * dy (f_hs s))).
  { clear i j. intros i j. unfold free_construct in H.
    destruct (new_on _ (base_args a)) as [h|e]; [|discriminate]. cbn [bind] in H.
    destruct (Nat.eqb (dim h) 1); [discriminate|]. injection H as H. subst s. reflexivity. }
  rewrite DX, DY. intros Hi Hj. rewrite !RR, G4, G5, S3, S4.
  destruct (free_coord_neg _ i P1 Hi) as (z & -> & EX). destruct (free_coord_neg _ j P2 Hj) as (w & -> & EY).
  pose proof (spacing_neq a 0 Z0 P1) as N0. pose proof (spacing_neq a 1 Z1 P2) as N1.
  set (d0 := spacing (fa_grid a) (fa_sizes a) 0) in *. set (d1 := spacing (fa_grid a) (fa_sizes a) 1) in *.
  destruct EX as [->| ->], EY as [->| ->]; rewrite ?(proj1 (pixel_grid_even _ d0 d1 z _ N0 N1)), ?(proj2 (pixel_grid_even _ d0 d1 z w N0 N1)); reflexivity.
Qed.

Lemma semi_index : forall per n d, (0 < n)%nat -> (d < semi_points per n)%nat -> exists x x', (x < n)%nat /\ (x' < n)%nat
  /\ ((x + neg (semi_points per n) x') mod semi_points per n)%nat = d
  /\ ((x' + neg (semi_points per n) x) mod semi_points per n)%nat = neg (semi_points per n) d.
Proof.
  intros per n d P H. set (N := semi_points per n) in *.
  assert (NN : (n <= N)%nat /\ (N <= n \/ N = 2 * n - 1)%nat) by (unfold N, semi_points; destruct per; lia).
  destruct (Nat.lt_ge_cases d n) as [C|C].
  - exists d, 0%nat. rewrite neg_0, Nat.add_0_r, Nat.mod_small by lia. repeat split; try lia.
    cbn [Nat.add]. apply Nat.mod_small. apply neg_lt. lia.
  - exists 0%nat, (N - d)%nat. repeat split; try lia.
    + rewrite (neg_pos N (N - d)) by lia. replace (0 + (N - (N - d)))%nat with d by lia. apply Nat.mod_small. lia.
    + rewrite neg_0, Nat.add_0_r, Nat.mod_small by lia. rewrite neg_pos by lia. reflexivity.
Qed.

Lemma semi_even : forall a s, semi_construct a = Ret s -> sizes_ok (sa_base a) -> even_on s.
Proof.
  intros a s H SO i j. destruct (semi_inv a s H) as (L & _ & D & _).
  destruct (semi_direct a s H SO) as [G1 _ [P1 P2] _ _ _ RE].
  assert (DX : domx s = semi_points (fst (sa_per a)) (gx (fa_grid (sa_base a)))) by (unfold domx; rewrite D; reflexivity).
  assert (DY : domy s = semi_points (snd (sa_per a)) (gy (fa_grid (sa_base a)))) by (unfold domy; rewrite D; reflexivity).
  rewrite DX, DY in *. intros Hi Hj.
  destruct (semi_index _ _ i P1 Hi) as (x & x' & X & X' & EX & EX'). destruct (semi_index _ _ j P2 Hj) as (y & y' & Y & Y' & EY & EY').
  rewrite <- EX', <- EY', RE by assumption. rewrite <- EX, <- EY. rewrite RE by assumption.
  destruct SO as [Z0 Z1]. pose proof (spacing_neq (sa_base a) 0 Z0 P1) as N0. pose proof (spacing_neq (sa_base a) 1 Z1 P2) as N1.
  set (K := image_influence _ _ _ _ _).
  assert (E : forall i j, K (- i)%Z j = K i j /\ K i (- j)%Z = K i j) by (intros; apply image_influence_even; assumption).
  destruct (image_offset_neg (fst (sa_per a)) _ x x' X X') as [->|[_ ->]], (image_offset_neg (snd (sa_per a)) _ y y' Y Y') as [->|[_ ->]];
    rewrite ?(proj1 (E _ _)), ?(proj2 (E _ _)); reflexivity.
Qed.

(** ** Both evaluations are multiplications with a real even function *)
Section Padded.
  Variable s : fsub.
  Hypothesis LD : List.length (f_dom s) = 2%nat.
  Hypothesis P1 : (0 < domx s)%nat.
  Hypothesis P2 : (0 < domy s)%nat.
  Hypothesis GF : f_gf s = fft2 (domx s) (domy s) (f_real s).
  Hypothesis SS : f_ss s = compute_surface_stiffness_c (f_gf s).
  Hypothesis EV : even_on s.

  Lemma pad_gf_Herm : Herm (domx s) (domy s) (f_gf s).
  Proof. rewrite GF. apply fft2_Herm; assumption. Qed.
  Lemma pad_ss_Herm : Herm (domx s) (domy s) (f_ss s).
  Proof. rewrite SS. apply cinv_Herm, pad_gf_Herm. Qed.
  Lemma pad_gf_real : forall k l, Cconj (f_gf s k l) = f_gf s k l.
  Proof. intros k l. rewrite GF. apply even_real; assumption. Qed.
  Lemma pad_ss_real : forall k l, Cconj (f_ss s k l) = f_ss s k l.
  Proof.
    intros k l. rewrite SS. unfold compute_surface_stiffness_c. destruct (Ceq_dec (f_gf s k l) (RtoC 0)) as [Z|Z]; [apply Cconj_RtoC|].
    assert (X : (Cconj (RtoC 1 / f_gf s k l) * f_gf s k l)%C = RtoC 1).
    { rewrite <- (pad_gf_real k l) at 2. rewrite <- Cconj_mult. replace (RtoC 1 / f_gf s k l * f_gf s k l)%C with (RtoC 1) by (field; exact Z).
      apply Cconj_RtoC. }
    transitivity ((Cconj (RtoC 1 / f_gf s k l) * f_gf s k l) / f_gf s k l)%C; [field; exact Z|rewrite X; reflexivity].
  Qed.
  Lemma pad_irfft : forall G f x y r, Herm (domx s) (domy s) G -> (x < domx s)%nat -> (y < domy s)%nat ->
    irfft2 (domx s) (domy s) (fun k l => (fft2 (domx s) (domy s) (fun x y => (r * f x y)%R) k l * G k l)%C) x y * (1 / (INR (domx s) * INR (domy s)))
    = r * mult (domx s) (domy s) G f x y.
  Proof.
    intros G f x y r H Hx Hy. pose proof (npts_pos _ _ P1 P2) as NP. unfold npts in NP.
    rewrite <- mult_scal_r by assumption. unfold mult, npts.
    rewrite (irfft2_ext _ _ (fun p q => (fft2 (domx s) (domy s) (fun x y => (r * f x y)%R) p q * G p q)%C)
               (fun p q => (G p q * fft2 (domx s) (domy s) (fun x y => (r * f x y)%R) p q)%C)) by (intros; apply Cmult_comm).
    field. split; intro Z; rewrite Z in NP; lra.
  Qed.
  Lemma base_disp_multiplier : multiplier (f_dom s) (base_disp s) (- / area_per_pt (f_hs s)) (f_gf s).
  Proof.
    split; [exact P1|]. split; [exact P2|]. split; [exact pad_gf_Herm|]. split; [exact pad_gf_real|].
    intros f E. unfold base_disp. rewrite E, shape_eqb_refl. cbn [negb]. eexists. split; [reflexivity|]. split; [reflexivity|].
    intros x y [Hx Hy]. cbn [a_val].
    pose proof (pad_irfft (f_gf s) (a_val f) x y (-1) pad_gf_Herm Hx Hy) as K.
    rewrite (irfft2_ext _ _ _ (fun k l => (fft2 (domx s) (domy s) (fun x y => (-1 * a_val f x y)%R) k l * f_gf s k l)%C)).
    2:{ intros k l _ _. f_equal. apply fft2_ext. intros. ring. }
    unfold Rdiv in *. set (A := / area_per_pt (f_hs s)) in *. set (Z := irfft2 _ _ _ _ _) in *.
    transitivity (A * (Z * (1 * / (INR (domx s) * INR (domy s))))); [ring|]. rewrite K. change (gx (f_dom s)) with (domx s). change (gy (f_dom s)) with (domy s). ring.
  Qed.
  Lemma base_force_multiplier : multiplier (f_dom s) (base_force s) (- area_per_pt (f_hs s)) (f_ss s).
  Proof.
    split; [exact P1|]. split; [exact P2|]. split; [exact pad_ss_Herm|]. split; [exact pad_ss_real|].
    intros f E. unfold base_force. rewrite E, shape_eqb_refl. cbn [negb]. eexists. split; [reflexivity|]. split; [reflexivity|].
    intros x y [Hx Hy]. cbn [a_val].
    pose proof (pad_irfft (f_ss s) (a_val f) x y 1 pad_ss_Herm Hx Hy) as K.
    rewrite (irfft2_ext _ _ _ (fun k l => (fft2 (domx s) (domy s) (fun x y => (1 * a_val f x y)%R) k l * f_ss s k l)%C)).
    2:{ intros k l _ _. f_equal. apply fft2_ext. intros. ring. }
    set (A := area_per_pt (f_hs s)) in *. set (Z := irfft2 _ _ _ _ _) in *.
    transitivity (- A * (Z * (1 / (INR (domx s) * INR (domy s))))); [ring|]. rewrite K. change (gx (f_dom s)) with (domx s). change (gy (f_dom s)) with (domy s). ring.
  Qed.

  (** ** The energy *)
  Lemma dom_ok : okgrid (f_dom s).
  Proof. split; [right; exact LD|]. split; assumption. Qed.
  Lemma ravel_dot_inner : forall u v, ravel_dot (mkArr (f_dom s) u) (amap Ropp (mkArr (f_dom s) v)) = Ret (- inner (f_dom s) u v).
  Proof.
    intros u v. unfold ravel_dot. cbn [amap a_shape a_val]. rewrite Nat.eqb_refl. f_equal.
    pose proof (asum_grid (f_dom s) (fun x y => u x y * - v x y) dom_ok) as E. unfold asum in E. cbn [a_shape] in E.
    transitivity (total (f_dom s) (fun x y => u x y * - v x y)).
    - rewrite <- E. apply Rsum_ext. intros k _. reflexivity.
    - unfold inner, total. rewrite (Rsum2_ext _ _ _ (fun x y => -1 * (u x y * v x y))) by (intros; ring). rewrite Rsum2_scal. ring.
  Qed.
  Lemma dom_energy_k : forall u f, multiplier (f_dom s) (base_force s) (- area_per_pt (f_hs s)) (f_ss s) ->
    base_force s (mkArr (f_dom s) u) = Ret f ->
    evaluate_elastic_energy_k_space (dom_sub s) (serial_ranks (dom_sub s))
      (fun k l => (- f_ss s k l * fft2 (domx s) (domy s) u k l * RtoC (area_per_pt (f_hs s)))%C) (fft2 (domx s) (domy s) u)
    = - (1 / 2) * inner (f_dom s) u (a_val f).
  Proof.
    intros u f (_ & _ & HG & _ & E) EF. destruct (E (mkArr (f_dom s) u) eq_refl) as (f' & E1 & _ & V). rewrite EF in E1. injection E1 as <-.
    cbn [a_val] in V. change (gx (f_dom s)) with (domx s) in *. change (gy (f_dom s)) with (domy s) in *.
    assert (SF : forall k l, (k < domx s)%nat -> (l < domy s)%nat ->
      fft2 (domx s) (domy s) (a_val f) k l = (- f_ss s k l * fft2 (domx s) (domy s) u k l * RtoC (area_per_pt (f_hs s)))%C).
    { intros k l K L. rewrite (fft2_ext _ _ (a_val f) (fun x y => - area_per_pt (f_hs s) * mult (domx s) (domy s) (f_ss s) u x y) k l).
      2:{ intros x y Hx Hy. apply V. split; assumption. }
      rewrite fft2_scal, (fft2_mult _ _ P1 P2) by assumption. rewrite RtoC_opp. ring. }
    unfold evaluate_elastic_energy_k_space.
    pose proof (serial_decomposition (dom_sub s)) as SD.
    rewrite scalar_product_decomposed by (try assumption; exact P1).
    change (nx (s_hs (dom_sub s))) with (domx s). change (ny (s_hs (dom_sub s))) with (domy s).
    rewrite (Rsum_ext _ _ (fun k => wt (domx s) k * Rsum (domy s) (fun l => Re (Cconj (fft2 (domx s) (domy s) u k l) * fft2 (domx s) (domy s) (a_val f) k l)%C))).
    2:{ intros k K. f_equal. apply Rsum_ext. intros l L. rewrite SF; [reflexivity| |exact L].
        pose proof (Nat.div_mod (domx s) 2 ltac:(lia)). assert (domx s / 2 < domx s)%nat by (apply Nat.div_lt; lia). lia. }
    rewrite <- (half_plancherel (domx s) (domy s)) by assumption.
    pose proof (npts_pos _ _ P1 P2) as NP. unfold inner, total. change (gx (f_dom s)) with (domx s). change (gy (f_dom s)) with (domy s). field_simplify_eq; lra.
  Qed.
  Lemma pad_evaluate : forall frc u f, frc (mkArr (f_dom s) u) = base_force s (mkArr (f_dom s) u) ->
    base_force s (mkArr (f_dom s) u) = Ret f ->
    a_shape f = f_dom s
    /\ f_evaluate frc s (mkArr (f_dom s) u) true true = Ret (Some (- (1 / 2) * inner (f_dom s) u (a_val f)), Some f)
    /\ f_evaluate frc s (mkArr (f_dom s) u) true false = Ret (Some (- (1 / 2) * inner (f_dom s) u (a_val f)), None)
    /\ f_evaluate frc s (mkArr (f_dom s) u) false true = Ret (None, Some f).
  Proof.
    intros frc u f EQ EF.
    assert (SH : a_shape f = f_dom s) by (destruct base_force_multiplier as (_ & _ & _ & _ & E); destruct (E (mkArr (f_dom s) u) eq_refl) as (f' & E1 & SH & _);
      rewrite EF in E1; injection E1 as <-; exact SH).
    split; [exact SH|]. unfold f_evaluate. rewrite EQ, EF. cbn [bind]. destruct f as [sh v]. cbn [a_shape a_val] in *. subst sh. split; [|split].
    - rewrite ravel_dot_inner. cbn [bind]. enough (X : 0.5 * - inner (f_dom s) u v = - (1 / 2) * inner (f_dom s) u v) by (rewrite X; reflexivity). lra.
    - destruct (copy_same (f_dom s) u) as (w & -> & SW); [intros Z; rewrite Z in LD; discriminate|lia|]. cbn [bind].
      pose proof (fft2_same (f_dom s) w u SW) as FE. change (gx (f_dom s)) with (domx s) in FE. change (gy (f_dom s)) with (domy s) in FE. rewrite FE.
      pose proof (dom_energy_k u _ base_force_multiplier EF) as DE. cbn [a_val] in DE. rewrite DE. reflexivity.
    - reflexivity.
  Qed.
End Padded.
