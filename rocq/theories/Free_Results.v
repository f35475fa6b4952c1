(** * Free and semi-periodic half-spaces: boundary checks, children, shifts *)

From Coq Require Import Reals ZArith Lia Lra List Arith Bool.
From Coquelicot Require Import Complex.
From Verif Require Import Py FFT_Base HalfSpace_Model HalfSpace_Spec HalfSpace_Proofs
  HalfSpace_Results HalfSpace_Results3 Free_Model Free_Spec Pixel Free_Proofs.
Import ListNotations.
Local Open Scope R_scope.

(** ** Boundary check *)

Lemma check_vals_spec : forall tol vals, check_vals tol vals = true <->
  forall r, In (Some r) vals -> Rabs r <= tol.
Proof.
  intros tol vals. unfold check_vals. rewrite orb_true_iff, andb_true_iff, !forallb_forall.
  split.
  - intros [[H _]|H] r I; specialize (H _ I); cbn in H; [|discriminate].
    unfold Rle_bool in H. destruct (Rle_dec (Rabs r) tol); [assumption|discriminate].
  - intros H.
    assert (A : forall v, In v vals ->
      (match v with Some r => Rle_bool (Rabs r) tol | None => true end) = true).
    { intros [r|] I; [|reflexivity]. unfold Rle_bool.
      destruct (Rle_dec (Rabs r) tol); [reflexivity|]. exfalso. apply n. apply H. exact I. }
    destruct (existsb (fun v : option R => match v with Some _ => true | None => false end) vals) eqn:E.
    + left. split; [exact A|reflexivity].
    + right. intros [r|] I; [|reflexivity].
      assert (X : existsb (fun v : option R => match v with Some _ => true | None => false end) vals = true).
      { apply existsb_exists. exists (Some r). split; [exact I|reflexivity]. }
      congruence.
Qed.

Definition owns (d : dec) (x y : nat) : Prop :=
  (fst (d_loc d) <= x < fst (d_loc d) + fst (d_n d))%nat
  /\ (snd (d_loc d) <= y < snd (d_loc d) + snd (d_n d))%nat.

Lemma rim_lines_sound : forall n loc sub i, (0 < n)%nat -> (0 < sub)%nat ->
  In i (rim_lines n loc sub) ->
  (loc + i = 0 \/ S (loc + i) = n)%nat /\ (i < topo_sub n loc sub)%nat.
Proof.
  intros n loc sub i Hn Hs H. unfold rim_lines, topo_sub, max_index in *. apply in_app_or in H.
  destruct H as [H|H].
  - destruct (Nat.eqb_spec loc 0); [|contradiction]. destruct H as [H|[]]. lia.
  - destruct (Z.ltb_spec 0 (Z.of_nat n - 1 - Z.of_nat loc)); cbn [andb] in H; [|contradiction].
    destruct (Z.ltb_spec (Z.of_nat n - 1 - Z.of_nat loc) (Z.of_nat (Nat.min (n - loc) sub)));
      [|contradiction].
    destruct H as [H|[]]. lia.
Qed.

Lemma rim_lines_complete : forall n loc sub i,
  (i < topo_sub n loc sub)%nat -> ~ (S loc = n /\ 2 <= n)%nat ->
  (loc + i = 0 \/ S (loc + i) = n)%nat -> In i (rim_lines n loc sub).
Proof.
  intros n loc sub i Hi Hl H. unfold rim_lines, topo_sub, max_index in *. apply in_or_app.
  destruct (Nat.eq_dec (loc + i) 0) as [Z|Z].
  - left. destruct (Nat.eqb_spec loc 0); [left; lia|lia].
  - right. destruct H as [H|H]; [lia|].
    destruct (Z.ltb_spec 0 (Z.of_nat n - 1 - Z.of_nat loc)); [|lia].
    destruct (Z.ltb_spec (Z.of_nat n - 1 - Z.of_nat loc) (Z.of_nat (Nat.min (n - loc) sub))); [|lia].
    left. lia.
Qed.

Lemma topo_sub_owns : forall n loc sub x, (loc <= x < loc + sub)%nat -> (x < n)%nat ->
  (x - loc < topo_sub n loc sub)%nat.
Proof. intros. unfold topo_sub. lia. Qed.

(** Not the last row or column as first line of a subdomain. *)
Definition starts_inside (n : nat * nat) (d : dec) : Prop :=
  ~ (S (fst (d_loc d)) = fst n /\ 2 <= fst n)%nat
  /\ ~ (S (snd (d_loc d)) = snd n /\ 2 <= snd n)%nat.

Definition covers (n : nat * nat) (ds : list dec) : Prop :=
  forall x y, (x < fst n)%nat -> (y < snd n)%nat -> exists d, In d ds /\ owns d x y.

Definition nonempty (d : dec) : Prop := (0 < fst (d_n d))%nat /\ (0 < snd (d_n d))%nat.

Lemma check_sound : forall n tol ds F, (0 < fst n)%nat -> (0 < snd n)%nat ->
  (forall d, In d ds -> nonempty d) ->
  (forall x y r, rim n x y -> F x y = Some r -> Rabs r <= tol) ->
  check_boundaries n tol ds F = Ret tt.
Proof.
  intros n tol ds F H0 H1 Hd H. unfold check_boundaries.
  assert (E : forallb (fun d => check_local n tol d
        (fun i j => F (fst (d_loc d) + i)%nat (snd (d_loc d) + j)%nat)) ds = true).
  { apply forallb_forall. intros d Id. destruct (Hd d Id) as [N0 N1].
    unfold check_local. apply andb_true_iff. split; apply forallb_forall.
    - intros j Hj. apply rim_lines_sound in Hj; try assumption. destruct Hj as [J1 J2].
      apply check_vals_spec. intros r Ir. apply in_map_iff in Ir. destruct Ir as (i & Ei & Ii).
      apply in_seq in Ii. apply H with (2 := Ei). unfold topo_n in Ii. cbn [fst snd] in Ii.
      unfold rim, topo_sub in *. lia.
    - intros i Hi. apply rim_lines_sound in Hi; try assumption. destruct Hi as [J1 J2].
      apply check_vals_spec. intros r Ir. apply in_map_iff in Ir. destruct Ir as (j & Ej & Ij).
      apply in_seq in Ij. apply H with (2 := Ej). unfold topo_n in Ij. cbn [fst snd] in Ij.
      unfold rim, topo_sub in *. lia. }
  rewrite E. reflexivity.
Qed.

Lemma check_complete : forall n tol ds F,
  (forall d, In d ds -> starts_inside n d) -> covers n ds ->
  (exists x y r, rim n x y /\ F x y = Some r /\ tol < Rabs r) ->
  check_boundaries n tol ds F = Exc FreeBoundaryError.
Proof.
  intros n tol ds F Hd Hc (x & y & r & (Hx & Hy & Hr) & EF & Ht). unfold check_boundaries.
  destruct (forallb _ ds) eqn:E; [|reflexivity]. exfalso.
  rewrite forallb_forall in E. destruct (Hc x y Hx Hy) as (d & Id & Ox & Oy).
  specialize (E d Id). destruct (Hd d Id) as [S0 S1]. unfold check_local in E.
  apply andb_true_iff in E. destruct E as [E1 E2]. rewrite forallb_forall in E1, E2.
  pose proof (topo_sub_owns (fst n) _ _ x Ox Hx) as TX.
  pose proof (topo_sub_owns (snd n) _ _ y Oy Hy) as TY.
  assert (EF' : F (fst (d_loc d) + (x - fst (d_loc d)))%nat (snd (d_loc d) + (y - snd (d_loc d)))%nat = Some r).
  { replace (fst (d_loc d) + (x - fst (d_loc d)))%nat with x by lia.
    replace (snd (d_loc d) + (y - snd (d_loc d)))%nat with y by lia. exact EF. }
  assert (C : Rabs r <= tol); [|lra].
  destruct (Nat.eq_dec x 0) as [X|X]; [|destruct (Nat.eq_dec (S x) (fst n)) as [X'|X']].
  - specialize (E2 (x - fst (d_loc d))%nat). rewrite check_vals_spec in E2.
    + apply (E2 ltac:(apply rim_lines_complete; try assumption; lia)).
      apply in_map_iff. exists (y - snd (d_loc d))%nat. split; [exact EF'|].
      apply in_seq. unfold topo_n. cbn [snd]. lia.
  - specialize (E2 (x - fst (d_loc d))%nat). rewrite check_vals_spec in E2.
    + apply (E2 ltac:(apply rim_lines_complete; try assumption; lia)).
      apply in_map_iff. exists (y - snd (d_loc d))%nat. split; [exact EF'|].
      apply in_seq. unfold topo_n. cbn [snd]. lia.
  - specialize (E1 (y - snd (d_loc d))%nat). rewrite check_vals_spec in E1.
    + apply (E1 ltac:(apply rim_lines_complete; try assumption; lia)).
      apply in_map_iff. exists (x - fst (d_loc d))%nat. split; [exact EF'|].
      apply in_seq. unfold topo_n. cbn [fst]. lia.
Qed.

Lemma mask_spec : forall n d i j, (0 < fst n)%nat -> (0 < snd n)%nat -> nonempty d ->
  (i < fst (topo_n n d))%nat -> (j < snd (topo_n n d))%nat ->
  (boundary_mask n d i j = true -> rim n (fst (d_loc d) + i)%nat (snd (d_loc d) + j)%nat)
  /\ (starts_inside n d -> rim n (fst (d_loc d) + i) (snd (d_loc d) + j) ->
      boundary_mask n d i j = true).
Proof.
  intros n d i j H0 H1 [N0 N1] Hi Hj. unfold topo_n in Hi, Hj. cbn [fst snd] in Hi, Hj.
  unfold boundary_mask. rewrite orb_true_iff, !existsb_exists. split.
  - intros [(k & Ik & Ek)|(k & Ik & Ek)]; apply Nat.eqb_eq in Ek; subst k;
      apply rim_lines_sound in Ik; try assumption; destruct Ik as [J1 J2];
      unfold rim, topo_sub in *; lia.
  - intros [S0 S1] (R1 & R2 & R3).
    destruct (Nat.eq_dec (fst (d_loc d) + i) 0) as [X|X];
      [|destruct (Nat.eq_dec (S (fst (d_loc d) + i)) (fst n)) as [X'|X']].
    + right. exists i. split; [|apply Nat.eqb_refl]. apply rim_lines_complete; auto.
    + right. exists i. split; [|apply Nat.eqb_refl]. apply rim_lines_complete; auto.
    + left. exists j. split; [|apply Nat.eqb_refl]. apply rim_lines_complete; auto. lia.
Qed.

(** ** Padding *)

Lemma local_pad_spec : forall n d F i j, (i < fst (d_n d))%nat -> (j < snd (d_n d))%nat ->
  local_pad n d (fun i j => F (fst (d_loc d) + i)%nat (snd (d_loc d) + j)%nat) i j
  = extend0 [fst n; snd n] F (fst (d_loc d) + i)%nat (snd (d_loc d) + j)%nat.
Proof.
  intros n d F i j Hi Hj. unfold local_pad, extend0, topo_n, topo_sub. cbn [fst snd gx gy nth].
  destruct (Nat.ltb_spec i (Nat.min (fst n - fst (d_loc d)) (fst (d_n d))));
  destruct (Nat.ltb_spec (fst (d_loc d) + i) (fst n)); try lia; cbn [andb]; [|reflexivity].
  destruct (Nat.ltb_spec j (Nat.min (snd n - snd (d_loc d)) (snd (d_n d))));
  destruct (Nat.ltb_spec (snd (d_loc d) + j) (snd n)); try lia; reflexivity.
Qed.

(** ** Shifts *)

Lemma wrap_shift : forall n x x' a, (0 < n)%nat ->
  wrap n (offset ((x + a) mod n) ((x' + a) mod n)) = wrap n (offset x x').
Proof.
  intros n x x' a Hn. unfold offset. rewrite !Nat2Z.inj_mod, !Nat2Z.inj_add.
  rewrite (Z.mod_eq (Z.of_nat x + Z.of_nat a)) by lia.
  rewrite (Z.mod_eq (Z.of_nat x' + Z.of_nat a)) by lia.
  set (p := ((Z.of_nat x + Z.of_nat a) / Z.of_nat n)%Z).
  set (q := ((Z.of_nat x' + Z.of_nat a) / Z.of_nat n)%Z).
  replace (Z.of_nat x + Z.of_nat a - Z.of_nat n * p - (Z.of_nat x' + Z.of_nat a - Z.of_nat n * q))%Z
    with (Z.of_nat x - Z.of_nat x' + (q - p) * Z.of_nat n)%Z by ring.
  apply wrap_cong. exact Hn.
Qed.

Lemma direct_shift_x : forall K g per f a x y, (0 < gx g)%nat -> fst per = true ->
  direct K g per (translate_x g a f) x y = direct K g per f ((x + a) mod gx g) y.
Proof.
  intros K g [p q] f a x y Hn E. cbn [fst] in E. subst p. unfold direct, translate_x, Rsum2.
  cbn [fst snd].
  rewrite <- (Rsum_shift (gx g) a (fun x' => Rsum (gy g) (fun y' =>
    K (image_offset true (gx g) ((x + a) mod gx g) x') (image_offset q (gy g) y y') * f x' y'))) by exact Hn.
  apply Rsum_ext. intros x' Hx'. apply Rsum_ext. intros y' Hy'.
  unfold image_offset at 3. rewrite wrap_shift by exact Hn. reflexivity.
Qed.

Lemma direct_shift_y : forall K g per f b x y, (0 < gy g)%nat -> snd per = true ->
  direct K g per (translate_y g b f) x y = direct K g per f x ((y + b) mod gy g).
Proof.
  intros K g [p q] f b x y Hn E. cbn [snd] in E. subst q. unfold direct, translate_y, Rsum2.
  cbn [fst snd]. apply Rsum_ext. intros x' Hx'.
  rewrite <- (Rsum_shift (gy g) b (fun y' =>
    K (image_offset p (gx g) x x') (image_offset true (gy g) ((y + b) mod gy g) y') * f x' y')) by exact Hn.
  apply Rsum_ext. intros y' Hy'.
  unfold image_offset at 4. rewrite wrap_shift by exact Hn. reflexivity.
Qed.

(** ** argsort *)

Lemma filter_len_all : forall (P : nat -> bool) s n,
  (forall k, (s <= k < s + n)%nat -> P k = true) -> length (filter P (seq s n)) = n.
Proof.
  intros P s n. revert s. induction n as [|n IH]; intros s H; [reflexivity|].
  cbn [seq filter]. rewrite H by lia. cbn [length]. f_equal. apply IH. intros. apply H. lia.
Qed.

Lemma filter_len_none : forall (P : nat -> bool) s n,
  (forall k, (s <= k < s + n)%nat -> P k = false) -> length (filter P (seq s n)) = 0%nat.
Proof.
  intros P s n. revert s. induction n as [|n IH]; intros s H; [reflexivity|].
  cbn [seq filter]. rewrite H by lia. apply IH. intros. apply H. lia.
Qed.

Lemma filter_len_below : forall (P : nat -> bool) s n c, (s <= c <= s + n)%nat ->
  (forall k, (s <= k < s + n)%nat -> P k = true <-> (k < c)%nat) ->
  length (filter P (seq s n)) = (c - s)%nat.
Proof.
  intros P s n c Hc H. replace n with ((c - s) + (s + n - c))%nat by lia.
  rewrite seq_app, filter_app, app_length.
  rewrite filter_len_all by (intros; apply H; lia).
  rewrite filter_len_none; [lia|].
  intros k Hk. destruct (P k) eqn:E; [|reflexivity]. apply H in E; lia.
Qed.

Lemma arank_fftindex : forall N i, (i < N)%nat ->
  Z.of_nat (arank (fftindex N) N i) = (fftindex N i + Z.of_nat (N / 2))%Z.
Proof.
  intros N i Hi. unfold arank.
  pose proof (Nat.div_mod N 2 ltac:(lia)). pose proof (Nat.mod_upper_bound N 2 ltac:(lia)).
  pose proof (Nat.div_mod (N - 1) 2 ltac:(lia)). pose proof (Nat.mod_upper_bound (N - 1) 2 ltac:(lia)).
  set (h := (N - N / 2)%nat). assert (E : ((N - 1) / 2 = h - 1)%nat) by lia.
  assert (Hh : (1 <= h <= N)%nat) by lia.
  assert (SQ : seq 0 N = seq 0 h ++ seq h (N / 2)).
  { change h with (0 + h)%nat at 2. rewrite <- seq_app. f_equal. lia. }
  rewrite SQ.
  rewrite filter_app, app_length.
  assert (V : forall k, fftindex N k = if Nat.ltb k h then Z.of_nat k else (Z.of_nat k - Z.of_nat N)%Z).
  { intros k. unfold fftindex. rewrite E.
    destruct (Nat.leb_spec k (h - 1)), (Nat.ltb_spec k h); lia. }
  assert (T : forall k, ((Z.ltb (fftindex N k) (fftindex N i)
      || (Z.eqb (fftindex N k) (fftindex N i) && Nat.ltb k i)) = true)%bool
      <-> (fftindex N k < fftindex N i)%Z).
  { intros k. rewrite orb_true_iff, andb_true_iff, Z.ltb_lt, Z.eqb_eq, Nat.ltb_lt.
    split; [|tauto]. intros [A|[A B]]; [exact A|]. rewrite !V in A |- *.
    destruct (Nat.ltb_spec k h), (Nat.ltb_spec i h); lia. }
  destruct (Nat.lt_ge_cases i h) as [L|L].
  - rewrite (filter_len_below _ 0 h i) by
      (try lia; intros k Hk; rewrite T, !V;
       destruct (Nat.ltb_spec k h), (Nat.ltb_spec i h); lia).
    rewrite filter_len_all by
      (intros k Hk; apply T; rewrite !V; destruct (Nat.ltb_spec k h), (Nat.ltb_spec i h); lia).
    rewrite V. destruct (Nat.ltb_spec i h); lia.
  - rewrite filter_len_none.
    2:{ intros k Hk. match goal with |- ?b = false => destruct b eqn:B end; [|reflexivity].
        apply T in B. rewrite !V in B. destruct (Nat.ltb_spec k h), (Nat.ltb_spec i h); lia. }
    rewrite (filter_len_below _ h (N / 2) i) by
      (try lia; intros k Hk; rewrite T, !V;
       destruct (Nat.ltb_spec k h), (Nat.ltb_spec i h); lia).
    rewrite V. destruct (Nat.ltb_spec i h); lia.
Qed.

Lemma argsort_fftindex : forall N j, (j < N)%nat ->
  argsort (fftindex N) N j = ((j + (N - N / 2)) mod N)%nat
  /\ fftindex N (argsort (fftindex N) N j) = (Z.of_nat j - Z.of_nat (N / 2))%Z.
Proof.
  intros N j Hj.
  pose proof (Nat.div_mod N 2 ltac:(lia)). pose proof (Nat.mod_upper_bound N 2 ltac:(lia)).
  assert (B : forall k, (k < N)%nat -> (arank (fftindex N) N k < N)%nat ->
     fftindex N k = (Z.of_nat (arank (fftindex N) N k) - Z.of_nat (N / 2))%Z).
  { intros k Hk _. pose proof (arank_fftindex N k Hk). lia. }
  assert (I : fftindex N ((j + (N - N / 2)) mod N) = (Z.of_nat j - Z.of_nat (N / 2))%Z).
  { rewrite fftindex_wrap by (apply Nat.mod_upper_bound; lia).
    unfold wrap. rewrite Nat2Z.inj_mod.
    rewrite Zplus_mod_idemp_l.
    replace (Z.of_nat (j + (N - N / 2)) + Z.of_nat (N / 2))%Z with (Z.of_nat j + 1 * Z.of_nat N)%Z by lia.
    rewrite Z.mod_add by lia. rewrite Z.mod_small by lia. lia. }
  assert (A : argsort (fftindex N) N j = ((j + (N - N / 2)) mod N)%nat).
  { unfold argsort. destruct (find _ (seq 0 N)) as [i|] eqn:F.
    - apply find_some in F. destruct F as [Fi Fe]. apply in_seq in Fi. apply Nat.eqb_eq in Fe.
      assert (X : fftindex N i = fftindex N ((j + (N - N / 2)) mod N)).
      { rewrite I. pose proof (arank_fftindex N i ltac:(lia)). lia. }
      pose proof (Nat.mod_upper_bound (j + (N - N / 2)) N ltac:(lia)).
      unfold fftindex in X.
      destruct (Nat.leb_spec i ((N - 1) / 2));
      destruct (Nat.leb_spec ((j + (N - N / 2)) mod N) ((N - 1) / 2)); lia.
    - exfalso. pose proof (find_none _ _ F ((j + (N - N / 2)) mod N)%nat) as X.
      pose proof (Nat.mod_upper_bound (j + (N - N / 2)) N ltac:(lia)) as U.
      specialize (X ltac:(apply in_seq; lia)). apply Nat.eqb_neq in X. apply X.
      pose proof (arank_fftindex N _ U). lia. }
  split; [exact A|]. rewrite A. exact I.
Qed.

(** ** Inverse on the padded grid *)

Lemma cinv_Herm : forall Nx Ny G, Herm Nx Ny G -> Herm Nx Ny (compute_surface_stiffness_c G).
Proof.
  intros Nx Ny G H k l Hk Hl. unfold compute_surface_stiffness_c. rewrite (H k l Hk Hl).
  destruct (Ceq_dec (G k l) (RtoC 0)) as [Z|Z].
  - rewrite Z. rewrite Cconj_RtoC. destruct (Ceq_dec (RtoC 0) (RtoC 0)); [reflexivity|congruence].
  - destruct (Ceq_dec (Cconj (G k l)) (RtoC 0)) as [W|W].
    + exfalso. apply Z. rewrite <- (Cconj_invol (G k l)), W. apply Cconj_RtoC.
    + assert (X : (Cconj (RtoC 1 / G k l) * Cconj (G k l))%C = RtoC 1).
      { rewrite <- Cconj_mult. replace (RtoC 1 / G k l * G k l)%C with (RtoC 1) by (field; exact Z).
        apply Cconj_RtoC. }
      transitivity ((Cconj (RtoC 1 / G k l) * Cconj (G k l)) / Cconj (G k l))%C.
      * rewrite X. reflexivity.
      * field. exact W.
Qed.

Lemma base_inverse : forall s, (0 < domx s)%nat -> (0 < domy s)%nat -> length (f_dom s) = 2%nat ->
  f_gf s = fft2 (domx s) (domy s) (f_real s) ->
  f_ss s = compute_surface_stiffness_c (f_gf s) ->
  (forall k l, (k < domx s)%nat -> (l < domy s)%nat -> f_gf s k l <> RtoC 0) ->
  area_per_pt (f_hs s) <> 0 ->
  forall f, (exists u f', base_disp s (mkArr (f_dom s) f) = Ret u /\ base_force s u = Ret f'
     /\ same_on (f_dom s) (a_val f') f)
  /\ (exists u f', base_force s (mkArr (f_dom s) f) = Ret u /\ base_disp s u = Ret f'
     /\ same_on (f_dom s) (a_val f') f).
Proof.
  intros s P1 P2 L G SS NZ AR f.
  assert (HG : Herm (domx s) (domy s) (f_gf s)) by (rewrite G; apply fft2_Herm; assumption).
  assert (HS : Herm (domx s) (domy s) (f_ss s)) by (rewrite SS; apply cinv_Herm; exact HG).
  assert (NP := npts_pos (domx s) (domy s) P1 P2).
  assert (DD : forall (v : field) x y, (x < domx s)%nat -> (y < domy s)%nat ->
    irfft2 (domx s) (domy s) (fun k l => (fft2 (domx s) (domy s) (fun x y => - v x y)%R k l * f_gf s k l)%C) x y
    / area_per_pt (f_hs s) * (1 / (INR (domx s) * INR (domy s)))
    = (- / area_per_pt (f_hs s)) * mult (domx s) (domy s) (f_gf s) v x y).
  { intros v x y Hx Hy.
    replace (mult (domx s) (domy s) (f_gf s) v x y)
      with (-1 * mult (domx s) (domy s) (f_gf s) (fun x y => -1 * v x y) x y).
    2:{ rewrite mult_scal_r by assumption. ring. }
    unfold mult at 1. rewrite (irfft2_ext (domx s) (domy s) _
      (fun k l => (f_gf s k l * fft2 (domx s) (domy s) (fun x y => -1 * v x y)%R k l)%C)).
    2:{ intros k l Hk Hl. rewrite Cmult_comm. f_equal. apply fft2_ext. intros. ring. }
    unfold npts in *. field. repeat split; try exact AR; intro Z; rewrite Z in NP; lra. }
  assert (FF : forall (v : field) x y, (x < domx s)%nat -> (y < domy s)%nat ->
    - irfft2 (domx s) (domy s) (fun k l => (fft2 (domx s) (domy s) v k l * f_ss s k l)%C) x y
    * area_per_pt (f_hs s) * (1 / (INR (domx s) * INR (domy s)))
    = (- area_per_pt (f_hs s)) * mult (domx s) (domy s) (f_ss s) v x y).
  { intros v x y Hx Hy. unfold mult. rewrite (irfft2_ext (domx s) (domy s) _
      (fun k l => (f_ss s k l * fft2 (domx s) (domy s) v k l)%C)).
    2:{ intros. apply Cmult_comm. }
    unfold npts in *. field. split; intro Z; rewrite Z in NP; lra. }
  assert (ONE : forall (v : field) x y, (x < domx s)%nat -> (y < domy s)%nat ->
    mult (domx s) (domy s) (f_ss s) (mult (domx s) (domy s) (f_gf s) v) x y = v x y
    /\ mult (domx s) (domy s) (f_gf s) (mult (domx s) (domy s) (f_ss s) v) x y = v x y).
  { assert (Q : forall k l, (k < domx s)%nat -> (l < domy s)%nat -> (f_ss s k l * f_gf s k l)%C = RtoC 1).
    { intros k l Hk Hl. rewrite SS. unfold compute_surface_stiffness_c.
      destruct (Ceq_dec (f_gf s k l) (RtoC 0)) as [Z|Z]; [exfalso; exact (NZ k l Hk Hl Z)|].
      field. exact Z. }
    intros v x y Hx Hy. split; rewrite mult_comp by assumption;
      (transitivity (mult (domx s) (domy s) (fun _ _ => RtoC 1) v x y);
       [apply mult_ext2; try assumption; intros k l Hk Hl
       |apply (mult_1 (domx s) (domy s) P1 P2 v x y Hx Hy)]);
      first [apply Q; assumption | rewrite Cmult_comm; apply Q; assumption]. }
  split.
  - unfold base_disp, base_force. cbn [a_shape a_val]. rewrite shape_eqb_refl. cbn [negb].
    eexists. eexists. split; [reflexivity|]. cbn [a_shape]. rewrite shape_eqb_refl. cbn [negb].
    split; [reflexivity|]. intros x y [Hx Hy]. cbn [a_val]. fold (domx s) in Hx. fold (domy s) in Hy.
    rewrite FF by assumption.
    rewrite (mult_ext (domx s) (domy s) (f_ss s) _
      (fun x y => (- / area_per_pt (f_hs s)) * mult (domx s) (domy s) (f_gf s) f x y))
      by (intros; apply DD; assumption).
    rewrite mult_scal_r by assumption. rewrite (proj1 (ONE f x y Hx Hy)). field. exact AR.
  - unfold base_disp, base_force. cbn [a_shape a_val]. rewrite shape_eqb_refl. cbn [negb].
    eexists. eexists. split; [reflexivity|]. cbn [a_shape]. rewrite shape_eqb_refl. cbn [negb].
    split; [reflexivity|]. intros x y [Hx Hy]. cbn [a_val]. fold (domx s) in Hx. fold (domy s) in Hy.
    rewrite DD by assumption.
    rewrite (mult_ext (domx s) (domy s) (f_gf s) _
      (fun x y => (- area_per_pt (f_hs s)) * mult (domx s) (domy s) (f_ss s) f x y))
      by (intros; apply FF; assumption).
    rewrite mult_scal_r by assumption. rewrite (proj2 (ONE f x y Hx Hy)). field. exact AR.
Qed.

(** ** Children *)

Lemma free_ok : forall a n m, fa_grid a = [n; m] -> (0 < n)%nat -> (0 < m)%nat ->
  fa_sizes a <> [] ->
  (forall g, fa_engine a = Some g -> g = [2 * n; 2 * m]%nat) ->
  exists s, free_construct a = Ret s.
Proof.
  intros a n m Eg Hn Hm Hs He.
  destruct (proj2 (new_ok_iff (mkArgs (fa_grid a) (fa_young a) (fa_sizes a) None None 0 None)))
    as [h Hh].
  { cbn. rewrite Eg. split; [right; reflexivity|]. split; [left; reflexivity|].
    split; [assumption|]. split; [|split; [lra|discriminate]].
    intros k [K|[K|[]]]; lia. }
  assert (N : new_on (map (fun r => (2 * r)%nat) (fa_grid a)) (base_args a) = Ret h).
  { unfold new, new_on, base_args in *. cbn [a_grid a_young a_sizes a_q0 a_thick a_poisson a_engine] in *.
    destruct (negb _); [discriminate|].
    destruct (extend_sizes _ _) as [l|]; [|discriminate]. cbn [bind] in *.
    destruct (compute_steps l (fa_grid a)) as [st|]; [|discriminate]. cbn [bind] in *.
    destruct (Req_bool _ 0); [discriminate|].
    destruct (fa_engine a) as [g|] eqn:E; [|exact Hh].
    rewrite (He g eq_refl), Eg. cbn [map]. rewrite shape_eqb_refl, <- Eg. exact Hh. }
  unfold free_construct. rewrite N. cbn [bind].
  destruct (Nat.eqb_spec (dim h) 1) as [D|D]; [|eexists; reflexivity].
  exfalso. destruct (zero_thick_q0 _ _ Hh) as [_ [_ [_ [Egr _]]]]. cbn in Egr.
  unfold dim in D. rewrite Egr, Eg in D. discriminate.
Qed.

Lemma semi_ok : forall a n m, fa_grid (sa_base a) = [n; m] -> (0 < n)%nat -> (0 < m)%nat ->
  fa_sizes (sa_base a) <> [] ->
  (forall g, fa_engine (sa_base a) = Some g ->
     g = [semi_points (fst (sa_per a)) n; semi_points (snd (sa_per a)) m]) ->
  exists s, semi_construct a = Ret s.
Proof.
  intros a n m Eg Hn Hm Hs He. destruct a as [b per k]. cbn [sa_base sa_per] in *.
  destruct (proj2 (new_ok_iff (mkArgs (fa_grid b) (fa_young b) (fa_sizes b) None None 0 None)))
    as [h Hh].
  { cbn. rewrite Eg. split; [right; reflexivity|]. split; [left; reflexivity|].
    split; [assumption|]. split; [|split; [lra|discriminate]].
    intros i [K|[K|[]]]; lia. }
  unfold semi_construct. cbn [sa_base sa_per sa_images]. rewrite Eg.
  assert (N : new_on [semi_points (fst per) n; semi_points (snd per) m] (base_args b) = Ret h).
  { unfold new, new_on, base_args in *. cbn [a_grid a_young a_sizes a_q0 a_thick a_poisson a_engine] in *.
    destruct (negb _); [discriminate|].
    destruct (extend_sizes _ _) as [l|]; [|discriminate]. cbn [bind] in *.
    destruct (compute_steps l (fa_grid b)) as [st|]; [|discriminate]. cbn [bind] in *.
    destruct (Req_bool _ 0); [discriminate|].
    destruct (fa_engine b) as [g|] eqn:E; [|exact Hh].
    rewrite (He g eq_refl). rewrite shape_eqb_refl. exact Hh. }
  rewrite N. eexists. reflexivity.
Qed.

Lemma child_cell_size : forall h n m N M lx ly i, h_grid h = [N; M] -> h_sizes h = [lx; ly] ->
  (i < 2)%nat -> cell_size (child_sizes h [n; m]) i
  = INR (nth i [n; m] 1%nat) / INR (nth i [N; M] 1%nat) * nth i [lx; ly] 0.
Proof.
  intros h n m N M lx ly i E1 E2 Hi. unfold child_sizes. rewrite E1, E2.
  cbn [combine map fst snd]. unfold cell_size. cbn [length].
  destruct i as [|[|i]]; [reflexivity|reflexivity|lia].
Qed.
