(** * Existence, uniqueness and distance of contact states for a positive compliance *)
From Coq Require Import Reals Lia Lra List Arith Bool.
From Coquelicot Require Import Complex Coquelicot.
From Verif Require Import FFT_Base HalfSpace_Spec Contact_Spec Signorini_Spec Signorini_Base.
From Verif Require Import Signorini_Periodic.
From Coq Require Import List.
Import ListNotations.
Local Open Scope R_scope.

Section States.
  Variables (n m : nat).
  Hypothesis PX : (0 < n)%nat.
  Hypothesis PY : (0 < m)%nat.
  (** Compliance of each wave. *)
  Variable sym : nat -> nat -> R.
  Hypothesis sym_pos : forall k l, (k < n)%nat -> (l < m)%nat -> 0 < sym k l.
  Let Sym : spectrum := fun k l => RtoC (sym k l).
  Hypothesis Sym_Herm : Herm n m Sym.
  Local Notation g := [n; m].
  Definition stiff : R := / sym 0 0.
  Local Notation k0 := stiff.
  Lemma stiff_pos : 0 < k0.
  Proof. apply Rinv_0_lt_compat, sym_pos; assumption. Qed.
  Definition comply : field -> field := mult n m Sym.
  Definition response (p u : field) : Prop := forall x y, (x < n)%nat -> (y < m)%nat -> u x y = comply p x y.
  Definition state (h : field) (delta : R) (p u : field) : Prop :=
    response p u /\ forall x y, on_grid g x y -> 0 <= p x y /\ 0 <= gap h delta u x y /\ p x y * gap h delta u x y = 0.
  Lemma comply_response : forall p, response p (comply p).
  Proof. intros p x y _ _. reflexivity. Qed.
  Lemma Comp_sub : forall f f' x y, (x < n)%nat -> (y < m)%nat ->
    comply (fun x y => f x y - f' x y) x y = comply f x y - comply f' x y.
  Proof.
    intros f f' x y Hx Hy. pose proof (mult_lin n m PX PY Sym 1 (-1) f f' x y Sym_Herm Hx Hy) as E. unfold comply.
    rewrite (mult_ext n m Sym _ (fun x y => 1 * f x y + -1 * f' x y)) by (intros; ring). rewrite E. ring.
  Qed.

  Local Notation N := (INR n * INR m).
  Lemma N_pos : 0 < N.
  Proof. apply Rmult_lt_0_compat; apply lt_0_INR; assumption. Qed.
  Lemma sq_modes : forall f, N * Rsum2 n m (fun x y => f x y * f x y) = Rsum2 n m (fun k l => Cmod (fft2 n m f k l) ^ 2).
  Proof.
    intros f. pose proof (dot_mult n m PX PY (fun _ _ => RtoC 1) f) as D. unfold dot, npts in D.
    rewrite (Rsum2_ext n m (fun x y => f x y * f x y) (fun x y => f x y * mult n m (fun _ _ => RtoC 1) f x y)).
    - rewrite D; [apply Rsum2_ext; intros; rewrite Re_RtoC; ring|]. intros k l _ _. rewrite Cconj_RtoC. reflexivity.
    - intros x y Hx Hy. rewrite (mult_1 n m PX PY f x y Hx Hy). reflexivity.
  Qed.
  Lemma energy_modes : forall f, N * Rsum2 n m (fun x y => f x y * comply f x y)
    = Rsum2 n m (fun k l => sym k l * Cmod (fft2 n m f k l) ^ 2).
  Proof.
    intros f. pose proof (dot_mult n m PX PY Sym f Sym_Herm) as D. unfold dot, npts in D. unfold comply. rewrite D.
    apply Rsum2_ext. intros. unfold Sym. rewrite Re_RtoC. reflexivity.
  Qed.
  Lemma Comp_low : forall a f, (forall k l, (k < n)%nat -> (l < m)%nat -> a <= sym k l) ->
    a * Rsum2 n m (fun x y => f x y * f x y) <= Rsum2 n m (fun x y => f x y * comply f x y).
  Proof.
    intros a f A. pose proof N_pos as P. apply (Rmult_le_reg_l N); [exact P|]. rewrite energy_modes.
    replace (N * (a * Rsum2 n m (fun x y => f x y * f x y))) with (a * (N * Rsum2 n m (fun x y => f x y * f x y))) by ring.
    rewrite sq_modes, <- Rsum2_scal. apply Rsum2_le. intros k l K L. apply Rmult_le_compat_r; [apply pow2_ge_0|auto].
  Qed.
  Lemma Comp_up : forall b f, (forall k l, (k < n)%nat -> (l < m)%nat -> 0 <= sym k l <= b) ->
    Rsum2 n m (fun x y => comply f x y * comply f x y) <= b * b * Rsum2 n m (fun x y => f x y * f x y).
  Proof.
    intros b f B. pose proof N_pos as P. apply (Rmult_le_reg_l N); [exact P|]. rewrite sq_modes.
    replace (N * (b * b * Rsum2 n m (fun x y => f x y * f x y))) with (b * b * (N * Rsum2 n m (fun x y => f x y * f x y))) by ring.
    rewrite sq_modes, <- Rsum2_scal. apply Rsum2_le. intros k l K L.
    unfold comply. rewrite (fft2_mult n m PX PY Sym f k l Sym_Herm K L), Cmod_mult. unfold Sym. rewrite Cmod_R.
    destruct (B k l K L) as [B1 B2]. rewrite Rabs_pos_eq by exact B1. rewrite Rpow_mult_distr.
    apply Rmult_le_compat_r; [apply pow2_ge_0|]. nra.
  Qed.
  Lemma Comp_mean : forall f, / k0 * (Rsum2 n m f) ^ 2 / N <= Rsum2 n m (fun x y => f x y * comply f x y).
  Proof.
    intros f. pose proof N_pos as P. apply (Rmult_le_reg_l N); [exact P|]. rewrite energy_modes.
    replace (N * (/ k0 * Rsum2 n m f ^ 2 / N)) with (/ k0 * Rsum2 n m f ^ 2) by (field; pose proof stiff_pos; repeat split; try (apply not_0_INR; lia); lra).
    eapply Rle_trans; [|apply (Rsum2_term n m (fun k l => sym k l * Cmod (fft2 n m f k l) ^ 2) 0 0)]; try assumption.
    - rewrite fft2_00, Cmod_R, pow2_abs. unfold stiff. rewrite Rinv_inv. lra.
    - intros k l K L. apply Rmult_le_pos; [left; apply sym_pos; assumption|apply pow2_ge_0].
  Qed.

  (** ** Existence *)
  Lemma contact_exists : forall h, exists p : R -> field, forall delta, state h delta (p delta) (comply (p delta)).
  Proof.
    intros h. destruct (bounds_2 n m sym sym_pos) as (a & b & A & B & F).
    exists (fun delta => limit comply a (b * b) (fun x y => h x y + delta)). intros delta. split; [apply comply_response|].
    intros x y [Hx Hy]. cbn [gx gy nth] in *. assert (BB : 0 < b * b) by nra.
    destruct (limit_complementary n m comply a (b * b) (fun x y => h x y + delta) A BB) with (x := x) (y := y) as (L1 & L2 & L3).
    - intros f f' i j [Hi Hj]. apply Comp_sub; assumption.
    - intros f. apply Comp_low. intros k l K L. apply F; assumption.
    - intros f. apply Comp_up. intros k l K L. destruct (F k l K L). lra.
    - split; assumption.
    - unfold gap. replace (_ - h x y - delta) with (comply (limit comply a (b * b) (fun x y => h x y + delta)) x y - (h x y + delta)) by ring.
      auto.
  Qed.

  (** ** Comparison of states *)
  Lemma distance_Comp : forall p u p' u', response p u -> response p' u' ->
    distance g p u p' u'
    = Rsum2 n m (fun x y => (p x y - p' x y) * comply (fun x y => p x y - p' x y) x y).
  Proof.
    intros p u p' u' R1 R2. unfold distance, inner, HalfSpace_Spec.total. cbn [gx gy nth]. apply Rsum2_ext. intros x y Hx Hy.
    rewrite Comp_sub by assumption. rewrite <- (R1 x y Hx Hy), <- (R2 x y Hx Hy). reflexivity.
  Qed.
  Lemma distance_zero : forall p u p' u', response p u -> response p' u' ->
    distance g p u p' u' <= 0 -> forall x y, (x < n)%nat -> (y < m)%nat -> p x y = p' x y /\ u x y = u' x y.
  Proof.
    intros p u p' u' R1 R2 D. rewrite (distance_Comp _ _ _ _ R1 R2) in D.
    destruct (bounds_2 n m sym sym_pos) as (a & b & A & B & F).
    pose proof (Comp_low a (fun x y => p x y - p' x y) (fun k l K L => proj1 (F k l K L))) as L.
    assert (Z : Rsum2 n m (fun x y => (p x y - p' x y) * (p x y - p' x y)) = 0).
    { apply Rle_antisym; [|apply Rsum2_nonneg; intros; apply Rle_0_sqr]. cbn beta in L. apply (Rmult_le_reg_l a); lra. }
    assert (E : forall x y, (x < n)%nat -> (y < m)%nat -> p x y = p' x y).
    { intros x y Hx Hy. assert (S : (p x y - p' x y) * (p x y - p' x y) = 0).
      { apply (Rsum2_zero_terms n m (fun x y => (p x y - p' x y) * (p x y - p' x y))); try assumption. intros; apply Rle_0_sqr. }
      apply Rmult_integral in S. lra. }
    intros x y Hx Hy. split; [auto|]. rewrite (R1 x y Hx Hy), (R2 x y Hx Hy).
    apply mult_ext. exact E.
  Qed.
  Lemma mean_total : forall f, Rsum2 n m f = N * mean g f.
  Proof. intros f. unfold mean, HalfSpace_Spec.total. cbn [gx gy nth]. pose proof N_pos. field. nra. Qed.
  Lemma distance_mean : forall p u p' u', response p u -> response p' u' ->
    N * (mean g p - mean g p') ^ 2 <= k0 * distance g p u p' u'.
  Proof.
    intros p u p' u' R1 R2. rewrite (distance_Comp _ _ _ _ R1 R2). pose proof stiff_pos as K. pose proof N_pos as P.
    pose proof (Comp_mean (fun x y => p x y - p' x y)) as M.
    rewrite (Rsum2_ext n m (fun x y => p x y - p' x y) (fun x y => p x y + -1 * p' x y)) in M by (intros; ring).
    rewrite Rsum2_plus, Rsum2_scal, (mean_total p), (mean_total p') in M.
    apply (Rmult_le_compat_l k0) in M; [|lra]. eapply Rle_trans; [|exact M]. apply Req_le. field. repeat split; try (apply not_0_INR; lia); lra.
  Qed.

  (** [u] lies at least [- eps] above the surface, [p] is at least [- tau]. *)
  Lemma distance_exact : forall h delta p u ps us eps tau, state h delta ps us ->
    (forall x y, (x < n)%nat -> (y < m)%nat -> - tau <= p x y /\ - eps <= gap h delta u x y) ->
    distance g p u ps us <= inner g p (gap h delta u) + tau * HalfSpace_Spec.total g (gap h delta us) + eps * HalfSpace_Spec.total g ps.
  Proof.
    intros h delta p u ps us eps tau [_ C] B. unfold distance, inner, HalfSpace_Spec.total. cbn [gx gy nth].
    rewrite <- !Rsum2_scal, <- !Rsum2_plus. apply Rsum2_le. intros x y Hx Hy.
    destruct (C x y (conj Hx Hy)) as (C1 & C2 & C3). destruct (B x y Hx Hy) as [B1 B2].
    set (G := gap h delta u x y) in *. set (Gs := gap h delta us x y) in *.
    replace (u x y - us x y) with (G - Gs) by (unfold G, Gs, gap; ring).
    assert (0 <= (p x y + tau) * Gs) by (apply Rmult_le_pos; lra).
    assert (0 <= (G + eps) * ps x y) by (apply Rmult_le_pos; lra). nra.
  Qed.
  Lemma distance_offsets : forall h delta delta' p u p' u', state h delta p u -> state h delta' p' u' ->
    distance g p u p' u' <= (delta - delta') * (N * (mean g p - mean g p')).
  Proof.
    intros h delta delta' p u p' u' [_ C] [_ C']. rewrite Rmult_minus_distr_l, <- !mean_total.
    unfold distance, inner, HalfSpace_Spec.total. cbn [gx gy nth].
    replace ((delta - delta') * (Rsum2 n m p - Rsum2 n m p'))
      with (Rsum2 n m (fun x y => (delta - delta') * (p x y + -1 * p' x y))).
    2:{ rewrite Rsum2_scal, Rsum2_plus, Rsum2_scal. ring. }
    apply Rsum2_le. intros x y Hx Hy.
    destruct (C x y (conj Hx Hy)) as (C1 & C2 & C3). destruct (C' x y (conj Hx Hy)) as (D1 & D2 & D3).
    set (G := gap h delta u x y) in *. set (G' := gap h delta' u' x y) in *.
    replace (u x y - u' x y) with (G - G' + (delta - delta')) by (unfold G, G', gap; ring).
    assert (0 <= p x y * G') by (apply Rmult_le_pos; lra). assert (0 <= p' x y * G) by (apply Rmult_le_pos; lra). nra.
  Qed.

  Lemma contact_unique : forall h delta p u p' u', state h delta p u -> state h delta p' u' ->
    forall x y, (x < n)%nat -> (y < m)%nat -> p x y = p' x y /\ u x y = u' x y.
  Proof.
    intros h delta p u p' u' C C'. apply distance_zero; [apply C|apply C'|].
    pose proof (distance_offsets _ _ _ _ _ _ _ C C'). lra.
  Qed.
  (** The mean pressure grows with the offset, at most at the rate [k0]. *)
  Lemma contact_load : forall h delta delta' p u p' u', state h delta p u -> state h delta' p' u' ->
    delta <= delta' -> mean g p <= mean g p' <= mean g p + k0 * (delta' - delta).
  Proof.
    intros h delta delta' p u p' u' C C' L. pose proof (distance_offsets _ _ _ _ _ _ _ C' C) as D.
    pose proof (distance_mean p' u' p u (proj1 C') (proj1 C)) as M. pose proof stiff_pos as K. pose proof N_pos as P.
    assert (E : (mean g p' - mean g p) ^ 2 <= k0 * ((delta' - delta) * (mean g p' - mean g p))).
    { apply (Rmult_le_reg_l N); [exact P|]. eapply Rle_trans; [exact M|].
      replace (N * (k0 * ((delta' - delta) * (mean g p' - mean g p))))
        with (k0 * ((delta' - delta) * (N * (mean g p' - mean g p)))) by ring. apply Rmult_le_compat_l; lra. }
    set (z := mean g p' - mean g p) in *. set (d := delta' - delta) in *.
    assert (D0 : 0 <= k0 * d) by (apply Rmult_le_pos; unfold d; lra).
    assert (Z0 : 0 <= z).
    { destruct (Rle_lt_dec 0 z) as [Z|Z]; [exact Z|]. exfalso. assert (0 < z ^ 2) by nra. nra. }
    assert (Z1 : z <= k0 * d).
    { destruct (Rle_lt_dec z (k0 * d)) as [Z|Z]; [exact Z|]. exfalso. nra. }
    unfold z in Z0, Z1. lra.
  Qed.
  Lemma contact_load_low : forall h delta p u, state h delta p u -> 0 <= mean g p /\ k0 * (mean g h + delta) <= mean g p.
  Proof.
    intros h delta p u [M C]. pose proof stiff_pos as K. pose proof N_pos as P. split.
    - unfold mean, HalfSpace_Spec.total. apply Rmult_le_pos; [apply Rsum2_nonneg; intros; apply C; split; assumption|].
      left. apply Rinv_0_lt_compat. exact P.
    - assert (U : mean g h + delta <= mean g u).
      { apply (Rmult_le_reg_l N); [exact P|]. rewrite Rmult_plus_distr_l, <- !mean_total.
        rewrite <- (Rsum2_const n m delta), <- Rsum2_plus. apply Rsum2_le. intros x y Hx Hy.
        destruct (C x y (conj Hx Hy)) as (_ & C2 & _). unfold gap in C2. lra. }
      assert (M' : mean g p = k0 * mean g u).
      { apply (Rmult_eq_reg_l N); [|lra]. replace (N * (k0 * mean g u)) with (k0 * (N * mean g u)) by ring. rewrite <- !mean_total.
        rewrite (Rsum2_ext n m u (comply p)) by (intros; apply M; assumption). unfold comply.
        rewrite (mult_sum n m PX PY Sym p Sym_Herm). unfold Sym, stiff. rewrite Re_RtoC. field.
        pose proof (sym_pos 0 0 PX PY). lra. }
      rewrite M'. apply Rmult_le_compat_l; lra.
  Qed.
  Lemma contact_above : forall h delta p u, state h delta p u ->
    (forall x y, (x < n)%nat -> (y < m)%nat -> h x y + delta <= 0) -> mean g p = 0.
  Proof.
    intros h delta p u C L.
    assert (Z : state h delta (fun _ _ => 0) (comply (fun _ _ => 0))).
    { split; [apply comply_response|]. intros x y [Hx Hy]. split; [lra|].
      assert (E : comply (fun _ _ => 0) x y = 0).
      { pose proof (Comp_sub (fun _ _ => 0) (fun _ _ => 0) x y Hx Hy) as E. unfold comply in *.
        rewrite (mult_ext n m Sym (fun _ _ => 0 - 0) (fun _ _ => 0)) in E by (intros; ring). lra. }
      unfold gap. rewrite E. specialize (L x y Hx Hy). lra. }
    unfold mean, HalfSpace_Spec.total. cbn [gx gy nth].
    rewrite (Rsum2_ext n m p (fun _ _ => 0)); [rewrite Rsum2_const; unfold Rdiv; ring|].
    intros x y Hx Hy. apply (contact_unique _ _ _ _ _ _ C Z); assumption.
  Qed.

  (** Prescribed mean pressure. *)
  Lemma contact_at_load : forall h F, 0 < F -> exists delta p u, state h delta p u /\ mean g p = F.
  Proof.
    intros h F PF. destruct (contact_exists h) as [p C]. pose proof stiff_pos as K.
    destruct (bounds_2 n m (fun x y => 1 + Rabs (h x y))) as (a & b & _ & Bp & B).
    { intros i j _ _. pose proof (Rabs_pos (h i j)). lra. }
    assert (CT : continuity (fun d => mean g (p d))).
    { intros d eps PE. exists (eps / k0). split; [apply Rdiv_lt_0_compat; assumption|]. intros z [_ Z].
      unfold R_dist, dist in *. cbn in *. unfold R_dist in *.
      assert (Q : Rabs (mean g (p z) - mean g (p d)) <= k0 * Rabs (z - d)).
      { destruct (Rle_dec d z) as [L|L].
        - pose proof (contact_load _ _ _ _ _ _ _ (C d) (C z) L). rewrite (Rabs_pos_eq (z - d)) by lra. rewrite Rabs_pos_eq by lra. lra.
        - apply Rnot_le_lt in L. pose proof (contact_load _ _ _ _ _ _ _ (C z) (C d) (Rlt_le _ _ L)).
          rewrite (Rabs_left1 (z - d)) by lra. rewrite Rabs_left1 by lra. lra. }
      eapply Rle_lt_trans; [exact Q|]. apply (Rmult_lt_reg_l (/ k0)); [apply Rinv_0_lt_compat; exact K|].
      rewrite <- Rmult_assoc, Rinv_l, Rmult_1_l by lra. rewrite Rmult_comm. exact Z. }
    assert (LO : mean g (p (- b)) = 0).
    { apply (contact_above h (- b) _ _ (C (- b))). intros x y Hx Hy. destruct (B x y Hx Hy) as [_ B2].
      pose proof (Rle_abs (h x y)). lra. }
    set (top := F / k0 - mean g h).
    assert (HI : F <= mean g (p top)).
    { destruct (contact_load_low _ _ _ _ (C top)) as [_ L]. unfold top in L at 1.
      replace (k0 * (mean g h + (F / k0 - mean g h))) with F in L by (field; lra). exact L. }
    destruct (IVT_gen (fun d => mean g (p d)) (- b) top F CT) as (d & _ & E).
    { rewrite LO. rewrite Rmin_left, Rmax_right by lra. lra. }
    exists d, (p d), (comply (p d)). auto.
  Qed.
  Lemma contact_load_unique : forall h delta p u delta' p' u', state h delta p u -> state h delta' p' u' ->
    mean g p = mean g p' -> 0 < mean g p ->
    delta = delta' /\ forall x y, (x < n)%nat -> (y < m)%nat -> p x y = p' x y /\ u x y = u' x y.
  Proof.
    intros h delta p u delta' p' u' C C' E PM. pose proof (distance_offsets _ _ _ _ _ _ _ C C') as D.
    assert (S : forall x y, (x < n)%nat -> (y < m)%nat -> p x y = p' x y /\ u x y = u' x y).
    { apply distance_zero; [apply C|apply C'|]. rewrite E in D. lra. }
    split; [|exact S].
    destruct (Req_dec delta delta') as [Q|Q]; [exact Q|]. exfalso.
    assert (Z : Rsum2 n m p = 0).
    { rewrite (Rsum2_ext n m p (fun _ _ => 0)); [rewrite Rsum2_const; ring|]. intros x y Hx Hy.
      destruct (S x y Hx Hy) as [S1 S2]. destruct C as [_ C]. destruct (C x y (conj Hx Hy)) as (A1 & A2 & A3).
      destruct C' as [_ C']. destruct (C' x y (conj Hx Hy)) as (B1 & B2 & B3). unfold gap in *. rewrite <- S1, <- S2 in B3.
      assert (p x y * (delta - delta') = 0) by lra. apply Rmult_integral in H. destruct H; lra. }
    rewrite mean_total in Z. pose proof N_pos. nra.
  Qed.
  (** States that meet the contact conditions within [eps]. *)
  Lemma load_error : forall h delta p u ps us eps, response p u -> state h delta ps us ->
    0 <= eps -> nearly_in_contact g h delta p u eps -> Rabs (sqrt (mean g p) - sqrt (mean g ps)) <= sqrt (k0 * eps).
  Proof.
    intros h delta p u ps us eps R1 C PE V. pose proof stiff_pos as K. pose proof N_pos as P.
    assert (D : distance g p u ps us <= eps * (N * (mean g p + mean g ps))).
    { eapply Rle_trans; [apply (distance_exact h delta p u ps us eps 0 C)|].
      - intros x y Hx Hy. destruct (V x y (conj Hx Hy)) as (V1 & V2 & _). lra.
      - rewrite Rmult_plus_distr_l, <- !mean_total. unfold inner, HalfSpace_Spec.total. cbn [gx gy nth].
        assert (S : Rsum2 n m (fun x y => p x y * gap h delta u x y) <= eps * Rsum2 n m p).
        { rewrite <- Rsum2_scal. apply Rsum2_le. intros x y Hx Hy. destruct (V x y (conj Hx Hy)) as (V1 & V2 & V3).
          destruct (Rle_lt_or_eq_dec _ _ V1) as [Q|Q]; [specialize (V3 Q); nra|rewrite <- Q; lra]. }
        lra. }
    pose proof (distance_mean p u ps us R1 (proj1 C)) as M.
    assert (A : 0 <= mean g p).
    { unfold mean, HalfSpace_Spec.total. apply Rmult_le_pos; [apply Rsum2_nonneg; intros; apply V; split; assumption|].
      left. apply Rinv_0_lt_compat. exact P. }
    destruct (contact_load_low h delta ps us C) as [B _].
    assert (E : (mean g p - mean g ps) ^ 2 <= k0 * eps * (mean g p + mean g ps)).
    { apply (Rmult_le_reg_l N); [exact P|]. eapply Rle_trans; [exact M|].
      replace (N * (k0 * eps * (mean g p + mean g ps))) with (k0 * (eps * (N * (mean g p + mean g ps)))) by ring.
      apply Rmult_le_compat_l; lra. }
    set (a := sqrt (mean g p)). set (b := sqrt (mean g ps)). assert (KE : 0 <= k0 * eps) by (apply Rmult_le_pos; lra).
    assert (A2 : mean g p = a * a) by (unfold a; rewrite sqrt_sqrt; auto).
    assert (B2 : mean g ps = b * b) by (unfold b; rewrite sqrt_sqrt; auto).
    assert (A0 : 0 <= a) by apply sqrt_pos. assert (B0 : 0 <= b) by apply sqrt_pos. rewrite A2, B2 in E. clearbody a b. clear A2 B2.
    assert (Q : (a - b) ^ 2 <= k0 * eps).
    { destruct (Req_dec (a + b) 0) as [Z|Z].
      - assert (a = 0) by lra. assert (b = 0) by lra. subst. lra.
      - apply (Rmult_le_reg_l ((a + b) ^ 2)); [apply pow2_gt_0; exact Z|].
        apply Rle_trans with ((a * a - b * b) ^ 2); [apply Req_le; ring|]. eapply Rle_trans; [exact E|].
        rewrite (Rmult_comm ((a + b) ^ 2)). apply Rmult_le_compat_l; [exact KE|]. nra. }
    rewrite <- sqrt_Rsqr_abs. apply sqrt_le_1_alt. unfold Rsqr. lra.
  Qed.
End States.
