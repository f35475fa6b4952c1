(** * Half-spaces under symmetries and changes of the unit of length *)
From Coq Require Import Reals ZArith Lia Lra List Arith Bool String FunctionalExtensionality.
From Coquelicot Require Import Complex Coquelicot.
From Verif Require Import Py FFT_Base HalfSpace_Model HalfSpace_Spec HalfSpace_Proofs HalfSpace_Results
  HalfSpace_Results2 HalfSpace_Results3 Free_Model Free_Spec Pixel Free_Proofs Systems_Model Factory_Model
  Pipeline_Model Pipeline_Results Contact_Model Contact_Proofs Contact_Results Contact_Results3
  Motion_Spec Motion_Base.
From Verif Require Pipeline_More.
From Coq Require Import List.
Import ListNotations.
Local Open Scope R_scope.

(** ** Evaluations as Fourier multipliers *)
Definition transforms (g : list nat) (ev : arr -> res arr) (c : R) (G : spectrum) : Prop :=
  (0 < gx g)%nat /\ (0 < gy g)%nat /\ Herm (gx g) (gy g) G
  /\ forall f, a_shape f = g -> exists u, ev f = Ret u
     /\ forall x y, on_grid g x y -> a_val u x y = c * mult (gx g) (gy g) G (a_val f) x y.

Lemma multiplier_transforms : forall g ev c G, multiplier g ev c G -> transforms g ev c G.
Proof.
  intros g ev c G (P1 & P2 & H & _ & E). repeat split; try assumption. intros f S. destruct (E f S) as (u & U & _ & V). eauto.
Qed.

Lemma scaled_irfft : forall n m G f x y, (0 < n)%nat -> (0 < m)%nat -> Herm n m G -> (x < n)%nat -> (y < m)%nat ->
  forall k, irfft2 n m (fun p q => (fft2 n m (fun x y => (k * f x y)%R) p q * G p q)%C) x y * (1 / (INR n * INR m))
  = k * mult n m G f x y.
Proof.
  intros n m G f x y P1 P2 H Hx Hy k. pose proof (npts_pos n m P1 P2) as NP. unfold npts in NP.
  rewrite <- mult_scal_r by assumption. unfold mult, npts.
  rewrite (irfft2_ext n m (fun p q => (fft2 n m (fun x y => (k * f x y)%R) p q * G p q)%C)
             (fun p q => (G p q * fft2 n m (fun x y => (k * f x y)%R) p q)%C)) by (intros; apply Cmult_comm).
  field. split; intro Z; rewrite Z in NP; lra.
Qed.

Section Free.
  Variables (g : list nat) (sizes : list R) (s : fsub).
  Hypothesis C0 : free_construct (free_args g sizes) = Ret s.

  Lemma free_real : f_real s = (fun i j =>
      pixel 1 (spacing g sizes 0 * 0.5) (spacing g sizes 1 * 0.5)
        (free_coord (gx g) i * spacing g sizes 0) (free_coord (gy g) j * spacing g sizes 1))
    /\ f_gf s = fft2 (2 * gx g) (2 * gy g) (f_real s)
    /\ f_ss s = compute_surface_stiffness_c (f_gf s)
    /\ f_dom s = map (fun r => (2 * r)%nat) g /\ List.length g = 2%nat
    /\ domx s = (2 * gx g)%nat /\ domy s = (2 * gy g)%nat.
  Proof.
    destruct (free_inv _ _ C0) as (L & G & D & _). cbn [fa_grid free_args] in *.
    destruct G as [G1 _ _ G3 G4 G5 G6 _]. cbn [fa_grid fa_young fa_sizes free_args] in *. destruct (G6 L) as (_ & _ & E1 & E2 & _).
    assert (DX : domx s = (2 * gx g)%nat /\ domy s = (2 * gy g)%nat).
    { unfold domx, domy, gx, gy. rewrite D. destruct g as [|n [|m [|? ?]]]; try discriminate. split; reflexivity. }
    destruct DX as [DX DY].
    revert G3 G4 G5 E1 E2 DX DY. unfold free_construct in C0. cbn [fa_grid free_args fa_check fa_engine] in C0.
    destruct (new_on _ _) as [h|e]; [|discriminate]. cbn [bind] in C0. destruct (Nat.eqb (dim h) 1); [discriminate|].
    injection C0 as <-. cbn [f_hs f_real f_gf f_ss f_dom]. unfold domx, domy. cbn [f_dom]. intros G3 G4 G5 E1 E2 DX DY.
    rewrite G3, G4, G5, E1, E2, DX, DY. repeat split. exact L.
  Qed.

  Lemma css_Herm : forall n m G, Herm n m G -> Herm n m (compute_surface_stiffness_c G).
  Proof.
    intros n m G H k l Hk Hl. unfold compute_surface_stiffness_c. rewrite (H k l Hk Hl).
    destruct (Ceq_dec (G k l) (RtoC 0)) as [Z|Z]; destruct (Ceq_dec (Cconj (G k l)) (RtoC 0)) as [Z'|Z'].
    - symmetry. apply Cconj_RtoC.
    - exfalso. apply Z'. rewrite Z. apply Cconj_RtoC.
    - exfalso. apply Z. rewrite <- (Cconj_invol (G k l)), Z'. apply Cconj_RtoC.
    - unfold Cdiv. rewrite Cconj_mult, Cconj_RtoC. f_equal.
      assert (E : (Cconj (G k l) * Cconj (/ G k l) = RtoC 1)%C).
      { rewrite <- Cconj_mult, Cinv_r by exact Z. apply Cconj_RtoC. }
      transitivity (/ Cconj (G k l) * (Cconj (G k l) * Cconj (/ G k l)))%C.
      + rewrite E. ring.
      + rewrite Cmult_assoc, Cinv_l by exact Z'. ring.
  Qed.

  Lemma free_disp_transforms :
    transforms (f_dom s) (fun f => free_disp s f false) (- / area_per_pt (f_hs s)) (f_gf s).
  Proof.
    destruct free_real as (_ & E & _ & D & L & DX & DY). destruct (free_inv _ _ C0) as (_ & [_ _ [P1 P2] _ _ _ _ _] & _).
    cbn [fa_grid free_args] in P1, P2.
    assert (GX : gx (f_dom s) = domx s) by reflexivity. assert (GY : gy (f_dom s) = domy s) by reflexivity.
    assert (Q1 : (0 < domx s)%nat) by lia. assert (Q2 : (0 < domy s)%nat) by lia.
    assert (H : Herm (domx s) (domy s) (f_gf s)) by (rewrite E, DX, DY; apply fft2_Herm; lia).
    unfold transforms. rewrite GX, GY. repeat split; try assumption.
    intros f F. unfold free_disp. rewrite F, shape_eqb_refl. unfold base_disp. rewrite F, shape_eqb_refl. cbn [negb].
    eexists. split; [reflexivity|]. intros x y [Hx Hy]. rewrite GX in Hx. rewrite GY in Hy. cbn [a_val].
    pose proof (scaled_irfft (domx s) (domy s) (f_gf s) (a_val f) x y Q1 Q2 H Hx Hy (-1)) as K.
    replace (fun x y => -1 * a_val f x y) with (fun x y => - a_val f x y) in K by (funext; funext; ring).
    unfold Rdiv in *. set (A := / area_per_pt (f_hs s)) in *. set (Z := irfft2 _ _ _ _ _) in *.
    transitivity (A * (Z * (1 * / (INR (domx s) * INR (domy s))))); [ring|]. rewrite K. ring.
  Qed.
  Lemma free_force_transforms : transforms (f_dom s) (base_force s) (- area_per_pt (f_hs s)) (f_ss s).
  Proof.
    destruct free_real as (_ & E & E' & D & L & DX & DY). destruct (free_inv _ _ C0) as (_ & [_ _ [P1 P2] _ _ _ _ _] & _).
    cbn [fa_grid free_args] in P1, P2.
    assert (GX : gx (f_dom s) = domx s) by reflexivity. assert (GY : gy (f_dom s) = domy s) by reflexivity.
    assert (Q1 : (0 < domx s)%nat) by lia. assert (Q2 : (0 < domy s)%nat) by lia.
    assert (H : Herm (domx s) (domy s) (f_ss s)) by (rewrite E'; apply css_Herm; rewrite E, DX, DY; apply fft2_Herm; lia).
    unfold transforms. rewrite GX, GY. repeat split; try assumption.
    intros f F. unfold base_force. rewrite F, shape_eqb_refl. cbn [negb].
    eexists. split; [reflexivity|]. intros x y [Hx Hy]. rewrite GX in Hx. rewrite GY in Hy. cbn [a_val].
    pose proof (scaled_irfft (domx s) (domy s) (f_ss s) (a_val f) x y Q1 Q2 H Hx Hy 1) as K.
    replace (fun x y => 1 * a_val f x y) with (a_val f) in K by (funext; funext; ring).
    set (A := area_per_pt (f_hs s)) in *. set (Z := irfft2 _ _ _ _ _) in *.
    transitivity (- A * (Z * (1 / (INR (domx s) * INR (domy s))))); [ring|]. rewrite K. ring.
  Qed.
End Free.

(** ** The points of the computational grid *)
Section Points.
  Variables (G G' : list nat) (sg : nat -> nat -> nat * nat).
  Hypothesis B : bijective (gx G) (gy G) (gx G') (gy G') sg.
  Definition carry (p : pt G') : pt G :=
    at_pt G (fst (sg (px p) (py p))) (snd (sg (px p) (py p)))
      (bi_in _ _ _ _ _ B (px p) (py p) (proj1 (pt_inside G' p)) (proj2 (pt_inside G' p))).
  Lemma carry_px : forall p, px (carry p) = fst (sg (px p) (py p)).
  Proof. reflexivity. Qed.
  Lemma carry_py : forall p, py (carry p) = snd (sg (px p) (py p)).
  Proof. reflexivity. Qed.
  Lemma write_carry : forall A (d : A) f x y, on_grid G' x y ->
    write G' d (fun q => f (carry q)) x y = through sg (write G d f) x y.
  Proof.
    intros A d f x y H. rewrite (write_in _ _ _ _ _ _ H). unfold through.
    destruct H as [Hx Hy]. rewrite (write_in _ _ _ _ _ _ (bi_in _ _ _ _ _ B x y Hx Hy)). f_equal. apply pt_eq; reflexivity.
  Qed.
  Lemma respond_follows : forall ev ev' c c' S S' t chi k r f p,
    transforms G ev c S -> transforms G' ev' c' S' -> follows (gx G) (gy G) (gx G') (gy G') sg t chi ->
    (forall p q, on_grid G' p q -> (RtoC (c' * k) * S' p q = RtoC (r * c) * through t S p q)%C) ->
    respond G' ev' (fun q => k * f (carry q)) p = r * respond G ev f (carry p).
  Proof.
    intros ev ev' c c' S S' t chi k r f p (P1 & P2 & HS & E) (P1' & P2' & HS' & E') F K. unfold respond.
    destruct (E (mkArr G (write G 0 f)) eq_refl) as (u & U & V).
    destruct (E' (mkArr G' (write G' 0 (fun q => k * f (carry q)))) eq_refl) as (u' & U' & V').
    rewrite U, U'. unfold read. destruct (pt_inside G' p) as [Hx Hy]. rewrite V' by (split; assumption). cbn [a_val].
    rewrite V by exact (pt_inside G (carry p)). cbn [a_val]. rewrite carry_px, carry_py.
    transitivity (c' * mult (gx G') (gy G') S' (fun x y => k * through sg (write G 0 f) x y) (px p) (py p)).
    2:{ apply (mult_follows _ _ _ _ sg t chi S S' c c' k r (write G 0 f) (px p) (py p)); try assumption.
        intros a0 b0 Ha Hb. apply K. split; assumption. }
    f_equal. apply mult_ext. intros x y X Y. rewrite (write_in _ _ _ _ _ _ (conj X Y)).
    rewrite <- (write_carry R 0 f x y (conj X Y)), (write_in _ _ _ _ _ _ (conj X Y)). reflexivity.
  Qed.
End Points.

(** ** The maps of points and waves on the computational grid *)
Definition still (x y : nat) : nat * nat := (x, y).
(** [n]: points of the topography, [N] x [M] points of the grid. *)
Definition point_map (v : motion) (n N M : nat) : nat -> nat -> nat * nat :=
  match v with
  | Still => still
  | Shift i j => shifted N M i j
  | Mirror => mirrored N (n - 1)
  | Exchange => exchanged
  end.
Definition wave_map (v : motion) (N : nat) : nat -> nat -> nat * nat :=
  match v with
  | Still | Shift _ _ => still
  | Mirror => fun k l => (neg N k, l)
  | Exchange => exchanged
  end.
Definition phases (v : motion) (n N M : nat) : spectrum :=
  match v with
  | Still | Exchange => fun _ _ => RtoC 1
  | Shift i j => fun k l => phase N M k l i j
  | Mirror => fun k _ => Cconj (w N k (n - 1))
  end.

Lemma point_bijective : forall v n N M, (0 < N)%nat -> (0 < M)%nat ->
  bijective N M (gx (moved_grid v [N; M])) (gy (moved_grid v [N; M])) (point_map v n N M).
Proof.
  intros v n N M P1 P2. destruct v as [|i j| |]; cbn [moved_grid point_map]; unfold gx, gy; cbn [nth].
  - constructor; unfold still; cbn; auto.
    + intros x y x' y' _ _ _ _ E. injection E. auto.
    + intros x y Hx Hy. exists x, y. auto.
  - apply shifted_bijective; assumption.
  - apply mirrored_bijective; assumption.
  - apply exchanged_bijective.
Qed.
Lemma point_follows : forall v n N M, (0 < N)%nat -> (0 < M)%nat ->
  follows N M (gx (moved_grid v [N; M])) (gy (moved_grid v [N; M])) (point_map v n N M) (wave_map v N) (phases v n N M).
Proof.
  intros v n N M P1 P2. destruct v as [|i j| |]; cbn [moved_grid point_map wave_map phases]; unfold gx, gy; cbn [nth].
  - constructor; unfold still, through; cbn [fst snd]; auto. intros f k l _ _. rewrite Cmult_1_l. reflexivity.
  - apply shifted_follows; assumption.
  - apply mirrored_follows; assumption.
  - apply exchanged_follows.
Qed.

(** ** The periodic half-space *)
Lemma wavenumber_scaled : forall a n m n' m' lx ly lx' ly' k l, 0 < a -> 0 < lx -> 0 < ly ->
  wavenumber [n; m] (a * lx) (a * ly) k l = / a * wavenumber [n; m] lx ly k l
  /\ (wavenumber [n'; m'] lx' ly' k l = wavenumber [m'; n'] ly' lx' l k).
Proof.
  intros a n m n' m' lx ly lx' ly' k l A X Y. unfold wavenumber, gx, gy. cbn [nth]. split.
  - set (p := INR _). set (q := INR _).
    replace ((p / (a * lx)) ^ 2 + (q / (a * ly)) ^ 2) with ((/ a) ^ 2 * ((p / lx) ^ 2 + (q / ly) ^ 2)) by (field; lra).
    rewrite sqrt_mult_alt by (apply pow2_ge_0). rewrite sqrt_pow2 by (apply Rlt_le, Rinv_0_lt_compat; exact A). ring.
  - rewrite Rplus_comm. reflexivity.
Qed.

Lemma wave_map_grid : forall v N M k l, (0 < N)%nat -> (0 < M)%nat -> on_grid (moved_grid v [N; M]) k l ->
  on_grid [N; M] (fst (wave_map v N k l)) (snd (wave_map v N k l)).
Proof.
  intros v N M k l P1 P2 [Hk Hl]. exact (fo_in _ _ _ _ _ _ _ (point_follows v 0 N M P1 P2) k l Hk Hl).
Qed.

Lemma periodic_symbol : forall v a n m lx ly s s' k l, 0 < a -> 0 < lx -> 0 < ly ->
  construct (periodic_args [n; m] [lx; ly]) = Ret s ->
  construct (periodic_args (moved_grid v [n; m]) (map (Rmult a) (moved_sizes v [lx; ly]))) = Ret s' ->
  on_grid (moved_grid v [n; m]) k l ->
  s_gf s' k l = a * through (wave_map v n) (s_gf s) k l
  /\ s_ss s' k l = / a * through (wave_map v n) (s_ss s) k l
  /\ area_per_pt (s_hs s') = a * a * area_per_pt (s_hs s).
Proof.
  intros v a n m lx ly s s' k l A X Y H H' G.
  assert (PS : positive_sizes [lx; ly]) by (intros z [<-|[<-|[]]]; assumption).
  assert (PS' : positive_sizes (map (Rmult a) (moved_sizes v [lx; ly]))).
  { intros z I. apply in_map_iff in I. destruct I as (u & <- & I). apply Rmult_lt_0_compat; [exact A|].
    destruct v; cbn [moved_sizes] in I; destruct I as [<-|[<-|[]]]; assumption. }
  destruct (gx_pos _ _ H) as [P1 P2]. cbn [periodic_args a_grid] in P1, P2.
  assert (G0 := wave_map_grid v n m k l P1 P2 G).
  assert (L' : List.length (moved_grid v [n; m]) = 2%nat) by (destruct v; reflexivity).
  assert (Gf : s_gf s' k l = a * through (wave_map v n) (s_gf s) k l).
  { unfold through.
    assert (W : forall p q, on_grid (moved_grid v [n; m]) p q ->
      wavenumber (moved_grid v [n; m]) (cell_size (map (Rmult a) (moved_sizes v [lx; ly])) 0)
        (cell_size (map (Rmult a) (moved_sizes v [lx; ly])) 1) p q
      = / a * wavenumber [n; m] lx ly (fst (wave_map v n p q)) (snd (wave_map v n p q))).
    { intros p q [Gp Gq]. destruct v as [|i j| |]; cbn [moved_grid moved_sizes map wave_map] in *; unfold cell_size; cbn.
      - apply (wavenumber_scaled a n m n m); assumption || exact 0.
      - apply (wavenumber_scaled a n m n m); assumption || exact 0.
      - pose proof (wavenumber_neg [n; m] lx ly p 0 (conj Gp P2)) as K.
        rewrite (proj1 (wavenumber_scaled a n m n m lx ly 0 0 p q A X Y)). f_equal.
        unfold wavenumber, gx, gy in *. cbn [nth] in *.
        assert (M : Nat.min (neg n p) (n - neg n p) = Nat.min p (n - p)).
        { unfold neg. destruct (Nat.eq_dec p 0) as [->|Z]; [rewrite Nat.sub_0_r, Nat.mod_same by lia; lia|rewrite Nat.mod_small by lia; lia]. }
        rewrite M. reflexivity.
      - rewrite (proj1 (wavenumber_scaled a m n n m ly lx 0 0 p q A Y X)). f_equal.
        apply (wavenumber_scaled a n m m n lx ly); assumption. }
    destruct (Nat.eq_dec k 0) as [K|K]; [destruct (Nat.eq_dec l 0) as [L|L]|].
    - subst k l. rewrite (periodic_mean _ _ s' H' PS' L').
      destruct (ss_default _ s' H' (periodic_pos _ _ PS') eq_refl (or_introl eq_refl)) as (_ & X2 & [Y2|Y2]);
        cbn [periodic_args a_grid] in X2, Y2; [lia|].
      assert (GG1 : on_grid (moved_grid v [n; m]) 1 0) by (split; lia).
      assert (GG2 : on_grid (moved_grid v [n; m]) 0 1) by (split; lia).
      rewrite !W by assumption.
      replace (s_gf s (fst (wave_map v n 0 0)) (snd (wave_map v n 0 0))) with (s_gf s 0 0)
        by (destruct v; cbn [wave_map fst snd]; unfold still, exchanged; cbn [fst snd]; rewrite ?neg_0 by exact P1; reflexivity).
      rewrite (periodic_mean _ _ s H PS eq_refl). unfold cell_size. cbn [nth Nat.min List.length Nat.sub].
      set (S1 := wavenumber [n; m] lx ly 1 0). set (S2 := wavenumber [n; m] lx ly 0 1).
      assert (E : wavenumber [n; m] lx ly (fst (wave_map v n 1 0)) (snd (wave_map v n 1 0))
                  + wavenumber [n; m] lx ly (fst (wave_map v n 0 1)) (snd (wave_map v n 0 1)) = S1 + S2).
      { destruct v as [|i j| |]; cbn [wave_map fst snd]; unfold still, exchanged; cbn [fst snd]; try reflexivity.
        - cbn [moved_grid] in *. unfold S1, S2. rewrite neg_0 by exact P1. rewrite <- (wavenumber_neg [n; m] lx ly 1 0 GG1).
          unfold gx, gy. cbn [nth]. rewrite !neg_0 by assumption. reflexivity.
        - apply Rplus_comm. }
      rewrite <- Rmult_plus_distr_l, E. unfold Rdiv. rewrite Rinv_mult, Rinv_inv. ring.
    - assert (NZ : ~ (k = 0 /\ l = 0)%nat) by tauto.
      assert (NZ' : ~ (fst (wave_map v n k l) = 0 /\ snd (wave_map v n k l) = 0)%nat).
      { destruct v; cbn [wave_map fst snd]; unfold still, exchanged; cbn [fst snd]; tauto. }
      rewrite (periodic_wave _ _ s' k l H' PS' G NZ), (periodic_wave _ _ s _ _ H PS G0 NZ'), W by exact G.
      unfold cell_size. cbn [nth Nat.min List.length Nat.sub]. unfold Rdiv. rewrite Rinv_mult, Rinv_inv. ring.
    - assert (NZ : ~ (k = 0 /\ l = 0)%nat) by tauto.
      assert (NZ' : ~ (fst (wave_map v n k l) = 0 /\ snd (wave_map v n k l) = 0)%nat).
      { destruct G as [Gk Gl]. destruct v; cbn [wave_map fst snd moved_grid] in *; unfold still, exchanged, gx, gy in *; cbn [fst snd nth] in *; try tauto.
        intros [Z _]. unfold neg in Z. rewrite Nat.mod_small in Z; lia. }
      rewrite (periodic_wave _ _ s' k l H' PS' G NZ), (periodic_wave _ _ s _ _ H PS G0 NZ'), W by exact G.
      unfold cell_size. cbn [nth Nat.min List.length Nat.sub]. unfold Rdiv. rewrite Rinv_mult, Rinv_inv. ring. }
  split; [exact Gf|]. split.
  - unfold through in *. destruct (gf_ss _ _ s' k l H' PS' G) as [S1 E1]. destruct (gf_ss _ _ s _ _ H PS G0) as [S2 E2].
    rewrite E1, E2 in Gf. apply (f_equal Rinv) in Gf. rewrite Rinv_mult, !Rinv_inv in Gf. exact Gf.
  - destruct (construct_inv _ s H) as [N0 _]. destruct (construct_inv _ s' H') as [N1 _].
    pose proof (new_inv _ _ N0) as (_ & _ & _ & _ & _ & _ & E0). pose proof (new_inv _ _ N1) as (_ & _ & _ & _ & _ & _ & E1).
    unfold area_per_pt. rewrite E0, E1. cbn [h_sizes h_grid periodic_args a_grid a_sizes]. rewrite L'.
    destruct v; cbn [moved_grid moved_sizes map List.length seq nth Nat.min Nat.sub fold_right]; field;
      split; apply not_0_INR; unfold gx, gy in P1, P2; cbn [nth] in P1, P2; lia.
Qed.

(** ** The half-space without periodicity *)
Lemma pixel_scaled : forall a young x y u v, 0 < a ->
  pixel young (a * x) (a * y) (a * u) (a * v) = a * pixel young x y u v.
Proof.
  intros a young x y u v A. unfold pixel.
  rewrite <- !Rmult_plus_distr_l, <- !Rmult_minus_distr_l.
  assert (S : forall p q, sqrt (a * p * (a * p) + a * q * (a * q)) = a * sqrt (p * p + q * q)).
  { intros p q. replace (a * p * (a * p) + a * q * (a * q)) with (a ^ 2 * (p * p + q * q)) by ring.
    rewrite sqrt_mult_alt by apply pow2_ge_0. rewrite sqrt_pow2 by lra. reflexivity. }
  rewrite !S.
  assert (D : forall p q r t, (a * p + a * q) / (a * r + a * t) = (p + q) / (r + t)).
  { intros p q r t. rewrite <- !Rmult_plus_distr_l. unfold Rdiv. rewrite Rinv_mult.
    transitivity ((a * / a) * ((p + q) * / (r + t))); [ring|]. rewrite Rinv_r by lra. ring. }
  rewrite !D. ring.
Qed.

Lemma free_coord_neg : forall n i, (i < 2 * n)%nat -> (i = n /\ neg (2 * n) i = n) \/
  exists z, free_coord n i = IZR z /\ free_coord n (neg (2 * n) i) = IZR (- z).
Proof.
  intros n i H. destruct (Nat.eq_dec i n) as [->|D].
  - left. split; [reflexivity|]. unfold neg. rewrite Nat.mod_small; lia.
  - right. destruct (Nat.eq_dec i 0) as [->|Z].
    + exists 0%Z. rewrite neg_0 by lia. unfold free_coord. cbn. auto.
    + rewrite neg_pos by lia. unfold free_coord. destruct (Nat.leb_spec i n) as [L|L].
      * destruct (Nat.leb_spec (2 * n - i) n); [lia|]. exists (Z.of_nat i). rewrite opp_IZR, <- INR_IZR_INZ. split; [reflexivity|].
        rewrite minus_INR, mult_INR by lia. cbn. ring.
      * destruct (Nat.leb_spec (2 * n - i) n); [|lia]. exists (Z.of_nat i - Z.of_nat n * 2)%Z.
        rewrite opp_IZR, minus_IZR, mult_IZR, <- !INR_IZR_INZ. split; [reflexivity|].
        rewrite minus_INR, mult_INR by lia. cbn. ring.
Qed.
Lemma free_coord_Z : forall n i, exists z, free_coord n i = IZR z.
Proof.
  intros n i. unfold free_coord. destruct (Nat.leb i n).
  - exists (Z.of_nat i). apply INR_IZR_INZ.
  - exists (Z.of_nat i - Z.of_nat n * 2)%Z. rewrite minus_IZR, mult_IZR, <- !INR_IZR_INZ. reflexivity.
Qed.

Definition kernel_map (v : motion) (N : nat) : nat -> nat -> nat * nat :=
  match v with
  | Still | Shift _ _ => still
  | Mirror => mirrored N 0
  | Exchange => exchanged
  end.

Lemma free_symbol : forall v a n m lx ly s s' k l, 0 < a -> 0 < lx -> 0 < ly ->
  (match v with Shift _ _ => False | _ => True end) ->
  free_construct (free_args [n; m] [lx; ly]) = Ret s ->
  free_construct (free_args (moved_grid v [n; m]) (map (Rmult a) (moved_sizes v [lx; ly]))) = Ret s' ->
  on_grid (moved_grid v [(2 * n)%nat; (2 * m)%nat]) k l ->
  f_gf s' k l = (RtoC a * through (wave_map v (2 * n)) (f_gf s) k l)%C
  /\ f_ss s' k l = (RtoC (/ a) * through (wave_map v (2 * n)) (f_ss s) k l)%C
  /\ area_per_pt (f_hs s') = a * a * area_per_pt (f_hs s).
Proof.
  intros v a n m lx ly s s' k l A X Y V H H' G.
  destruct (free_real _ _ _ H) as (R0 & F0 & S0 & D0 & _). destruct (free_real _ _ _ H') as (R1 & F1 & S1 & D1 & _).
  destruct (free_inv _ _ H) as (_ & [_ _ [P1 P2] _ _ _ AR _] & _).
  destruct (free_inv _ _ H') as (_ & [_ _ _ _ _ _ AR' _] & _). cbn [free_args fa_grid fa_sizes] in P1, P2, AR, AR'.
  unfold gx in P1. unfold gy in P2. cbn [nth] in P1, P2.
  assert (SX : spacing [n; m] [lx; ly] 0 <> 0).
  { unfold spacing, cell_size. cbn. apply Rmult_integral_contrapositive_currified; [lra|]. apply Rinv_neq_0_compat, not_0_INR. lia. }
  assert (SY : spacing [n; m] [lx; ly] 1 <> 0).
  { unfold spacing, cell_size. cbn. apply Rmult_integral_contrapositive_currified; [lra|]. apply Rinv_neq_0_compat, not_0_INR. lia. }
  assert (KER : forall x y, on_grid (moved_grid v [(2 * n)%nat; (2 * m)%nat]) x y ->
    f_real s' x y = a * through (kernel_map v (2 * n)) (f_real s) x y).
  { intros x y [Gx Gy]. rewrite R0, R1. unfold through.
    destruct v as [|i j| |]; [| contradiction | |]; cbn [moved_grid moved_sizes kernel_map map] in *; unfold still, exchanged, mirrored; cbn [fst snd].
    - rewrite <- pixel_scaled by exact A. unfold spacing, cell_size, gx, gy. cbn [nth Nat.min List.length Nat.sub].
      f_equal; unfold Rdiv; ring.
    - rewrite Nat.add_0_l. rewrite (Nat.mod_small (neg (2 * n) x)) by (apply neg_lt; lia).
      rewrite <- pixel_scaled by exact A.
      assert (E : forall z, free_coord n (neg (2 * n) x) * z = free_coord n x * z
         \/ exists i, free_coord n x = IZR i /\ free_coord n (neg (2 * n) x) = IZR (- i)).
      { intros z. unfold gx in Gx. cbn [nth] in Gx. destruct (free_coord_neg n x Gx) as [[E1 E2]|E]; [left; rewrite E2, E1; reflexivity|right; exact E]. }
      unfold gx, gy in *. cbn [nth] in *. rewrite !pixel_scaled by exact A.
      assert (EV : pixel 1 (spacing [n; m] [lx; ly] 0 * 0.5) (spacing [n; m] [lx; ly] 1 * 0.5)
                (free_coord n (neg (2 * n) x) * spacing [n; m] [lx; ly] 0) (free_coord m y * spacing [n; m] [lx; ly] 1)
              = pixel 1 (spacing [n; m] [lx; ly] 0 * 0.5) (spacing [n; m] [lx; ly] 1 * 0.5)
                (free_coord n x * spacing [n; m] [lx; ly] 0) (free_coord m y * spacing [n; m] [lx; ly] 1)).
      { destruct (E (spacing [n; m] [lx; ly] 0)) as [E1|(i & E1 & E2)]; [rewrite E1; reflexivity|].
        destruct (free_coord_Z m y) as [j Ej]. rewrite E1, E2, Ej. apply pixel_grid_even; assumption. }
      rewrite EV, <- pixel_scaled by exact A. unfold spacing, cell_size. cbn [nth Nat.min List.length Nat.sub].
      f_equal; unfold Rdiv; ring.
    - rewrite <- pixel_scaled by exact A. rewrite pixel_swap. unfold spacing, cell_size, gx, gy. cbn [nth Nat.min List.length Nat.sub].
      f_equal; unfold Rdiv; ring. }
  assert (DIM : (2 * gx (moved_grid v [n; m]) = gx (moved_grid v [2 * n; 2 * m]))%nat
             /\ (2 * gy (moved_grid v [n; m]) = gy (moved_grid v [2 * n; 2 * m]))%nat).
  { destruct v; split; reflexivity. }
  destruct DIM as [DX DY].
  assert (GF : f_gf s' k l = (RtoC a * through (wave_map v (2 * n)) (f_gf s) k l)%C).
  { rewrite F1, DX, DY, F0. change (gx [n; m]) with n. change (gy [n; m]) with m.
    rewrite (fft2_ext _ _ (f_real s') (fun x y => (a * through (kernel_map v (2 * n)) (f_real s) x y)%R))
      by (intros; apply KER; split; assumption).
    rewrite fft2_scal. f_equal. destruct G as [Gk Gl].
    destruct v as [|i j| |]; [| contradiction | |]; cbn [moved_grid kernel_map wave_map] in *; unfold gx, gy in *; cbn [nth] in *.
    - reflexivity.
    - rewrite (fo_fft _ _ _ _ _ _ _ (mirrored_follows (2 * n) (2 * m) 0 ltac:(lia) ltac:(lia))) by assumption.
      rewrite w_0_r, Cconj_RtoC, Cmult_1_l. reflexivity.
    - rewrite (fo_fft _ _ _ _ _ _ _ (exchanged_follows (2 * n) (2 * m))) by assumption. apply Cmult_1_l. }
  split; [exact GF|]. split.
  - rewrite S1, S0. unfold compute_surface_stiffness_c, through in *. rewrite GF.
    set (z := f_gf s _ _). assert (AC : RtoC a <> RtoC 0) by (intro E; apply RtoC_inj in E; lra).
    destruct (Ceq_dec z (RtoC 0)) as [Z|Z]; destruct (Ceq_dec (RtoC a * z)%C (RtoC 0)) as [Z'|Z'].
    + ring.
    + exfalso. apply Z'. rewrite Z. ring.
    + exfalso. apply (Cmult_neq_0 (RtoC a) z AC Z). exact Z'.
    + rewrite RtoC_inv by lra. field. split; assumption.
  - destruct (AR eq_refl) as (_ & _ & _ & _ & ->). destruct (AR' ltac:(destruct v; reflexivity)) as (_ & _ & _ & _ & ->).
    unfold point_area. destruct v; cbn [moved_grid moved_sizes map List.length Nat.eqb]; unfold gx, gy, cell_size;
      cbn [nth List.length Nat.sub Nat.min]; field; split; apply not_0_INR; lia.
Qed.

(** ** Both half-spaces *)
Record same_space (a : R) (v : motion) (g : list nat) (sb sb' : substrate) (sg : nat -> nat -> nat * nat)
    (B : bijective (gx (sb_sub sb)) (gy (sb_sub sb)) (gx (sb_sub sb')) (gy (sb_sub sb')) sg) : Prop := mkSame {
  sp_source : forall x y, on_grid (moved_grid v g) x y -> sg x y = source v g x y;
  sp_inside : forall x y, on_grid (sb_sub sb') x y -> inside (moved_grid v g) (x, y) = inside g (sg x y);
  sp_topo : sb_topo sb = g /\ sb_topo sb' = moved_grid v g;
  sp_area : sb_area sb' = a * a * sb_area sb;
  sp_disp : forall f p, respond (sb_sub sb') (sb_disp sb') (fun q => a * a * f (carry _ _ sg B q)) p
                        = a * respond (sb_sub sb) (sb_disp sb) f (carry _ _ sg B p);
  sp_disp_t : forall f p, respond (sb_sub sb') (sb_disp sb') (fun q => a * f (carry _ _ sg B q)) p
                        = a * (a / (a * a)) * respond (sb_sub sb) (sb_disp sb) f (carry _ _ sg B p);
  sp_force : forall f p, respond (sb_sub sb') (sb_force sb') (fun q => a * f (carry _ _ sg B q)) p
                        = a * a * respond (sb_sub sb) (sb_force sb) f (carry _ _ sg B p) }.

Lemma responses_same : forall a v g sb sb' sg t chi c1 c1' c2 c2' (S1 S1' S2 S2' : spectrum)
    (B : bijective (gx (sb_sub sb)) (gy (sb_sub sb)) (gx (sb_sub sb')) (gy (sb_sub sb')) sg), 0 < a ->
  follows (gx (sb_sub sb)) (gy (sb_sub sb)) (gx (sb_sub sb')) (gy (sb_sub sb')) sg t chi ->
  transforms (sb_sub sb) (sb_disp sb) c1 S1 -> transforms (sb_sub sb') (sb_disp sb') c1' S1' ->
  transforms (sb_sub sb) (sb_force sb) c2 S2 -> transforms (sb_sub sb') (sb_force sb') c2' S2' ->
  (forall k l, on_grid (sb_sub sb') k l -> (RtoC (c1' * (a * a)) * S1' k l = RtoC (a * c1) * through t S1 k l)%C) ->
  (forall k l, on_grid (sb_sub sb') k l -> (RtoC (c2' * a) * S2' k l = RtoC (a * a * c2) * through t S2 k l)%C) ->
  (forall x y, on_grid (moved_grid v g) x y -> sg x y = source v g x y) ->
  (forall x y, on_grid (sb_sub sb') x y -> inside (moved_grid v g) (x, y) = inside g (sg x y)) ->
  sb_topo sb = g -> sb_topo sb' = moved_grid v g -> sb_area sb' = a * a * sb_area sb ->
  same_space a v g sb sb' sg B.
Proof.
  intros a v g sb sb' sg t chi c1 c1' c2 c2' S1 S1' S2 S2' B A F T1 T1' T2 T2' K1 K2 E1 E2 E3 E4 E5.
  assert (AC : RtoC a <> RtoC 0) by (intro Z; apply RtoC_inj in Z; lra).
  constructor; auto.
  - intros f p. exact (respond_follows _ _ sg B _ _ c1 c1' S1 S1' t chi (a * a) a f p T1 T1' F K1).
  - intros f p. apply (respond_follows _ _ sg B _ _ c1 c1' S1 S1' t chi a (a * (a / (a * a))) f p T1 T1' F).
    intros k l G. specialize (K1 k l G).
    replace (a * (a / (a * a)) * c1) with c1 by (field; lra).
    rewrite !RtoC_mult in *. set (z := through t S1 k l) in *.
    assert (Q : (RtoC a * (RtoC c1' * RtoC a * S1' k l) = RtoC a * (RtoC c1 * z))%C).
    { transitivity (RtoC c1' * (RtoC a * RtoC a) * S1' k l)%C; [ring|]. rewrite K1. ring. }
    apply (f_equal (fun x => / RtoC a * x)%C) in Q. rewrite !Cmult_assoc, Cinv_l, !Cmult_1_l in Q by exact AC. exact Q.
  - intros f p. exact (respond_follows _ _ sg B _ _ c2 c2' S2 S2' t chi a (a * a) f p T2 T2' F K2).
Qed.

Lemma periodic_same : forall v a n m lx ly s s', 0 < a -> 0 < lx -> 0 < ly ->
  construct (periodic_args [n; m] [lx; ly]) = Ret s ->
  construct (periodic_args (moved_grid v [n; m]) (map (Rmult a) (moved_sizes v [lx; ly]))) = Ret s' ->
  exists B, same_space a v [n; m] (periodic s) (periodic s') (point_map v n n m) B.
Proof.
  intros v a n m lx ly s s' A X Y H H'.
  destruct (gx_pos _ _ H) as [P1 P2]. cbn [periodic_args a_grid] in P1, P2.
  pose proof (hs_grid _ _ H) as HG. pose proof (hs_grid _ _ H') as HG'. cbn [periodic_args a_grid] in HG, HG'.
  assert (PS : positive_sizes [lx; ly]) by (intros z [<-|[<-|[]]]; assumption).
  pose proof (periodic_area _ _ s H PS) as PA.
  assert (SYM := fun k l => periodic_symbol v a n m lx ly s s' k l A X Y H H').
  assert (AREA : area_per_pt (s_hs s') = a * a * area_per_pt (s_hs s)).
  { destruct (gx_pos _ _ H') as [Q1 Q2]. apply (SYM 0%nat 0%nat). split; assumption. }
  assert (T1 : transforms (sb_sub (periodic s)) (sb_disp (periodic s)) (- / area_per_pt (s_hs s)) (GF s)).
  { cbn [periodic sb_sub sb_disp]. rewrite HG. exact (multiplier_transforms _ _ _ _ (disp_multiplier _ _ H)). }
  assert (T2 : transforms (sb_sub (periodic s)) (sb_force (periodic s)) (- area_per_pt (s_hs s)) (SS s)).
  { cbn [periodic sb_sub sb_force]. rewrite HG. exact (multiplier_transforms _ _ _ _ (force_multiplier _ _ H)). }
  assert (T1' : transforms (sb_sub (periodic s')) (sb_disp (periodic s')) (- / area_per_pt (s_hs s')) (GF s')).
  { cbn [periodic sb_sub sb_disp]. rewrite HG'. exact (multiplier_transforms _ _ _ _ (disp_multiplier _ _ H')). }
  assert (T2' : transforms (sb_sub (periodic s')) (sb_force (periodic s')) (- area_per_pt (s_hs s')) (SS s')).
  { cbn [periodic sb_sub sb_force]. rewrite HG'. exact (multiplier_transforms _ _ _ _ (force_multiplier _ _ H')). }
  assert (BB : bijective (gx (sb_sub (periodic s))) (gy (sb_sub (periodic s))) (gx (sb_sub (periodic s'))) (gy (sb_sub (periodic s'))) (point_map v n n m)).
  { cbn [periodic sb_sub]. rewrite HG, HG'. exact (point_bijective v n n m P1 P2). }
  assert (FF : follows (gx (sb_sub (periodic s))) (gy (sb_sub (periodic s))) (gx (sb_sub (periodic s'))) (gy (sb_sub (periodic s'))) (point_map v n n m)
    (wave_map v n) (phases v n n m)).
  { cbn [periodic sb_sub]. rewrite HG, HG'. exact (point_follows v n n m P1 P2). }
  exists BB.
  apply (responses_same a v [n; m] (periodic s) (periodic s') _ (wave_map v n) (phases v n n m)
    _ _ _ _ _ _ _ _ BB A FF T1 T1' T2 T2'); cbn [periodic sb_sub sb_topo sb_area]; try assumption; rewrite ?HG'.
  - intros k l G. destruct (SYM k l G) as (E & _ & _). unfold GF. rewrite E, AREA. unfold through. rewrite <- !RtoC_mult. f_equal. field. split; lra.
  - intros k l G. destruct (SYM k l G) as (_ & E & _). unfold SS. rewrite E, AREA. unfold through. rewrite <- !RtoC_mult. f_equal. field. lra.
  - intros x y [Gx Gy]. unfold gx in P1. cbn [nth] in P1. destruct v as [|i j| |]; cbn [point_map source moved_grid] in *; try reflexivity.
    apply mirrored_inside. exact Gx.
  - intros x y [Gx Gy].
    assert (I1 : inside (moved_grid v [n; m]) (x, y) = true).
    { unfold inside. cbn [fst snd]. apply andb_true_iff. split; apply Nat.ltb_lt; assumption. }
    rewrite I1. symmetry. unfold inside. apply andb_true_iff.
    destruct (bi_in _ _ _ _ _ (point_bijective v n n m P1 P2) x y Gx Gy). split; apply Nat.ltb_lt; assumption.
Qed.

Lemma free_topo : forall g sizes s, free_construct (free_args g sizes) = Ret s -> topo_shape s = g.
Proof.
  intros g sizes s H.
  assert (E : make_half_space "nonperiodic" g sizes = Ret (free s)).
  { unfold make_half_space, call_free, half_space_kwargs. cbn. fold (free_args g sizes). rewrite H. reflexivity. }
  destruct (half_space_shapes _ _ _ _ E) as (_ & C0 & _). exact C0.
Qed.
Lemma free_same : forall v a n m lx ly s s', 0 < a -> 0 < lx -> 0 < ly ->
  (match v with Shift _ _ => False | _ => True end) ->
  free_construct (free_args [n; m] [lx; ly]) = Ret s ->
  free_construct (free_args (moved_grid v [n; m]) (map (Rmult a) (moved_sizes v [lx; ly]))) = Ret s' ->
  exists B, same_space a v [n; m] (free s) (free s') (point_map v n (2 * n) (2 * m)) B.
Proof.
  intros v a n m lx ly s s' A X Y V H H'.
  destruct (free_real _ _ _ H) as (_ & _ & _ & HG & _). destruct (free_real _ _ _ H') as (_ & _ & _ & HG' & _). cbn [map] in HG.
  assert (HG2 : f_dom s' = moved_grid v [(2 * n)%nat; (2 * m)%nat]) by (rewrite HG'; destruct v; reflexivity).
  destruct (free_inv _ _ H) as (_ & [_ _ [P1 P2] _ _ _ _ _] & _). cbn [free_args fa_grid] in P1, P2. unfold gx in P1. unfold gy in P2. cbn [nth] in P1, P2.
  assert (Q1 : (0 < 2 * n)%nat) by lia. assert (Q2 : (0 < 2 * m)%nat) by lia.
  assert (SYM := fun k l => free_symbol v a n m lx ly s s' k l A X Y V H H').
  assert (AREA : area_per_pt (f_hs s') = a * a * area_per_pt (f_hs s)).
  { apply (SYM 0%nat 0%nat). destruct v; split; cbn; lia. }
  assert (PA : 0 < area_per_pt (f_hs s)) by (apply (free_area [n; m] [lx; ly]); [exact H|intros z [<-|[<-|[]]]; assumption]).
  assert (T1 := free_disp_transforms _ _ _ H). assert (T1' := free_disp_transforms _ _ _ H').
  assert (T2 := free_force_transforms _ _ _ H). assert (T2' := free_force_transforms _ _ _ H').
  assert (BB : bijective (gx (sb_sub (free s))) (gy (sb_sub (free s))) (gx (sb_sub (free s'))) (gy (sb_sub (free s'))) (point_map v n (2 * n) (2 * m))).
  { cbn [free sb_sub]. rewrite HG, HG2. exact (point_bijective v n _ _ Q1 Q2). }
  assert (FF : follows (gx (sb_sub (free s))) (gy (sb_sub (free s))) (gx (sb_sub (free s'))) (gy (sb_sub (free s'))) (point_map v n (2 * n) (2 * m))
    (wave_map v (2 * n)) (phases v n (2 * n) (2 * m))).
  { cbn [free sb_sub]. rewrite HG, HG2. exact (point_follows v n _ _ Q1 Q2). }
  exists BB.
  apply (responses_same a v [n; m] (free s) (free s') _ (wave_map v (2 * n)) (phases v n (2 * n) (2 * m))
    _ _ _ _ _ _ _ _ BB A FF T1 T1' T2 T2'); cbn [free sb_sub sb_topo sb_area]; try assumption; rewrite ?HG2.
  - intros k l G. destruct (SYM k l G) as (E & _ & _). rewrite E, AREA.
    rewrite Cmult_assoc, <- !RtoC_mult. f_equal. f_equal. field. split; lra.
  - intros k l G. destruct (SYM k l G) as (_ & E & _). rewrite E, AREA. rewrite Cmult_assoc, <- !RtoC_mult. f_equal. f_equal. field. lra.
  - intros x y [Gx Gy]. destruct v as [|i j| |]; cbn [point_map source moved_grid] in *; try reflexivity; [contradiction|].
    apply mirrored_doubled. exact Gx.
  - intros x y [Gx Gy]. destruct v as [|i j| |]; cbn [point_map moved_grid] in *; try reflexivity; [contradiction| |].
    + unfold gx, gy in *. cbn [nth] in *. unfold inside, gx, gy. cbn [fst snd nth].
      destruct (Nat.lt_ge_cases x n) as [L|L].
      * rewrite mirrored_doubled by exact L. cbn [fst snd]. f_equal. rewrite (proj2 (Nat.ltb_lt _ _) L). symmetry. apply Nat.ltb_lt. lia.
      * f_equal. rewrite (proj2 (Nat.ltb_ge _ _) L). symmetry. apply Nat.ltb_ge. apply mirrored_upper. lia.
    + unfold inside, exchanged, gx, gy. cbn [fst snd nth]. apply andb_comm.
  - exact (free_topo _ _ _ H).
  - exact (free_topo _ _ _ H').
Qed.

Theorem space_moves : forall name v a n m lx ly sb, 0 < a -> 0 < lx -> 0 < ly -> may_shift name v ->
  make_half_space name [n; m] [lx; ly] = Ret sb ->
  exists sb' sg B, make_half_space name (moved_grid v [n; m]) (map (Rmult a) (moved_sizes v [lx; ly])) = Ret sb'
    /\ same_space a v [n; m] sb sb' sg B.
Proof.
  intros name v a n m lx ly sb A X Y V H.
  assert (E : exists sb', make_half_space name (moved_grid v [n; m]) (map (Rmult a) (moved_sizes v [lx; ly])) = Ret sb').
  { assert (K : exists n' m' lx' ly', moved_grid v [n; m] = [n'; m'] /\ map (Rmult a) (moved_sizes v [lx; ly]) = [lx'; ly']
       /\ ((n' = n /\ m' = m) \/ (n' = m /\ m' = n))).
    { destruct v; cbn; do 4 eexists; (split; [reflexivity|]; split; [reflexivity|]); auto. }
    destruct K as (n' & m' & lx' & ly' & -> & -> & D).
    assert (N : (name = "periodic"%string /\ (2 <= n)%nat /\ (2 <= m)%nat) \/ (name = "nonperiodic"%string /\ (1 <= n)%nat /\ (1 <= m)%nat)).
    { destruct (half_space_cases _ _ _ _ H) as [(-> & s & C0 & _)|(-> & s & C0 & _)].
      - left. split; [reflexivity|].
        assert (PS : positive_sizes [lx; ly]) by (intros z [<-|[<-|[]]]; assumption).
        destruct (ss_default _ s C0 (periodic_pos _ _ PS) eq_refl (or_introl eq_refl)) as (_ & X2 & [Y2|Y2]);
          cbn [periodic_args a_grid] in X2, Y2; [cbn in Y2; lia|]. unfold gx, gy in *. cbn in *. lia.
      - right. split; [reflexivity|]. destruct (free_inv _ _ C0) as (_ & [_ _ [P1 P2] _ _ _ _ _] & _).
        cbn [free_args fa_grid] in P1, P2. unfold gx in P1. unfold gy in P2. cbn [nth] in P1, P2. lia. }
    destruct (Pipeline_More.half_space_ok name n' m' lx' ly') as (sb' & E & _); [|eauto].
    destruct N as [(-> & ? & ?)|(-> & ? & ?)]; [left|right]; (split; [reflexivity|lia]). }
  destruct E as [sb' E]. exists sb'.
  destruct (half_space_cases _ _ _ _ H) as [(N & s & C0 & ->)|(N & s & C0 & ->)];
    destruct (half_space_cases _ _ _ _ E) as [(N' & s' & C1 & ->)|(N' & s' & C1 & ->)]; try (rewrite N in N'; discriminate).
  - destruct (periodic_same v a n m lx ly s s' A X Y C0 C1) as [B S]. eauto.
  - assert (W : match v with Shift _ _ => False | _ => True end).
    { destruct v; try exact Logic.I. cbn in V. rewrite V in N. discriminate. }
    destruct (free_same v a n m lx ly s s' A X Y W C0 C1) as [B S]. eauto.
Qed.
