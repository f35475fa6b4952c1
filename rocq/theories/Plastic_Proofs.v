(** * Solutions of the contact problem with a hardness *)
From Coq Require Import Reals Lia Lra List Arith Bool.
From Coquelicot Require Import Coquelicot.
From Verif Require Import FFT_Base HalfSpace_Spec Contact_Spec Signorini_Spec Signorini_Base Signorini_Periodic Plastic_Spec.
From Verif Require Plastic_Base Contact_Load.
From Coq Require Import List.
Import ListNotations.
Local Open Scope R_scope.

Section Plastic.
  Variables (n m : nat) (lx ly H : R).
  Hypothesis N2 : (2 <= n)%nat.
  Hypothesis M2 : (2 <= m)%nat.
  Hypothesis X : 0 < lx.
  Hypothesis Y : 0 < ly.
  Hypothesis PH : 0 <= H.
  Local Notation g := [n; m].
  Local Notation k0 := (uniform g lx ly).
  Local Notation N := (INR n * INR m).
  Local Notation response := (periodic_response g lx ly).
  Local Notation Cf := (Comp n m lx ly).
  Let K : 0 < k0 := k0_pos n m lx ly N2 M2 X Y.
  Let P : 0 < N := N_pos n m N2 M2.

  Lemma plastic_exists : forall h, exists p : R -> field,
    forall delta, in_plastic_contact g lx ly H h delta (p delta) (Cf (p delta)).
  Proof.
    intros h. destruct (bounds_2 n m (sym n m lx ly) (sym_pos n m lx ly N2 M2 X Y)) as (a & b & A & B & F).
    exists (fun delta => Plastic_Base.limit Cf a (b * b) (fun x y => h x y + delta) (Plastic_Base.clamp H)). intros delta.
    split; [apply Comp_response; assumption|]. intros x y [Hx Hy]. cbn [gx gy nth] in *. assert (BB : 0 < b * b) by nra.
    set (p := Plastic_Base.limit Cf a (b * b) (fun x y => h x y + delta) (Plastic_Base.clamp H)).
    apply (Plastic_Base.clamp_fixed H (a / (b * b))); [exact PH|apply Rdiv_lt_0_compat; assumption|].
    replace (gap h delta (Cf p) x y) with (Cf p x y - (h x y + delta)) by (unfold gap; ring).
    apply (Plastic_Base.limit_fixed n m Cf a (b * b) (fun x y => h x y + delta) (Plastic_Base.clamp H) (Plastic_Base.clamp_sq H) A BB).
    - intros f f' i j [Hi Hj]. apply Comp_sub; assumption.
    - intros f. apply Comp_low; try assumption. intros k l Q L. apply F; assumption.
    - intros f. apply Comp_up; try assumption. intros k l Q L. destruct (F k l Q L). lra.
    - split; assumption.
  Qed.

  (** Two states, each within its own tolerance. *)
  Lemma plastic_pair : forall h delta delta' p u p' u' eps eps', nearly_in_plastic_contact g H h delta p u eps ->
    nearly_in_plastic_contact g H h delta' p' u' eps' -> 0 <= eps -> 0 <= eps' ->
    distance g p u p' u' <= (delta - delta') * (N * (mean g p - mean g p')) + (eps + eps') * (N * (mean g p + mean g p')).
  Proof.
    intros h delta delta' p u p' u' eps eps' C C' E E'. rewrite Rmult_minus_distr_l, Rmult_plus_distr_l.
    rewrite <- !(mean_total n m N2 M2). unfold distance, inner, HalfSpace_Spec.total. cbn [gx gy nth].
    replace ((delta - delta') * (Rsum2 n m p - Rsum2 n m p') + (eps + eps') * (Rsum2 n m p + Rsum2 n m p'))
      with (Rsum2 n m (fun x y => (delta - delta') * (p x y + -1 * p' x y) + (eps + eps') * (p x y + p' x y))).
    2:{ rewrite Rsum2_plus, !Rsum2_scal, !Rsum2_plus, Rsum2_scal. ring. }
    apply Rsum2_le. intros x y Hx Hy.
    destruct (C x y (conj Hx Hy)) as (C1 & C2 & C3). destruct (C' x y (conj Hx Hy)) as (D1 & D2 & D3).
    set (G := gap h delta u x y) in *. set (G' := gap h delta' u' x y) in *.
    replace (u x y - u' x y) with (G - G' + (delta - delta')) by (unfold G, G', gap; ring).
    assert (T : (p x y - p' x y) * (G - G') <= (eps + eps') * (p x y + p' x y)).
    { destruct (Rtotal_order (p x y) (p' x y)) as [L|[L|L]].
      - assert (- eps <= G) by (apply C2; lra). assert (G' <= eps') by (apply D3; lra).
        assert (0 <= (p' x y - p x y) * (G - G' + (eps + eps'))) by (apply Rmult_le_pos; lra). nra.
      - rewrite L. replace ((p' x y - p' x y) * (G - G')) with 0 by ring. apply Rmult_le_pos; lra.
      - assert (G <= eps) by (apply C3; lra). assert (- eps' <= G') by (apply D2; lra).
        assert (0 <= (p x y - p' x y) * (eps + eps' - (G - G'))) by (apply Rmult_le_pos; lra). nra. }
    nra.
  Qed.
  Lemma plastic_near : forall h delta p u, in_plastic_contact g lx ly H h delta p u -> nearly_in_plastic_contact g H h delta p u 0.
  Proof. intros h delta p u [_ C] x y Q. destruct (C x y Q) as (C1 & C2 & C3). split; [exact C1|]. split; intros; [specialize (C2 ltac:(lra))|]; auto; lra. Qed.
  Lemma plastic_offsets : forall h delta delta' p u p' u', in_plastic_contact g lx ly H h delta p u -> in_plastic_contact g lx ly H h delta' p' u' ->
    distance g p u p' u' <= (delta - delta') * (N * (mean g p - mean g p')).
  Proof.
    intros h delta delta' p u p' u' C C'.
    pose proof (plastic_pair h delta delta' p u p' u' 0 0 (plastic_near _ _ _ _ C) (plastic_near _ _ _ _ C') (Rle_refl 0) (Rle_refl 0)). lra.
  Qed.
  Lemma plastic_unique : forall h delta p u p' u', in_plastic_contact g lx ly H h delta p u -> in_plastic_contact g lx ly H h delta p' u' ->
    forall x y, (x < n)%nat -> (y < m)%nat -> p x y = p' x y /\ u x y = u' x y.
  Proof.
    intros h delta p u p' u' C C'. apply (distance_zero n m lx ly N2 M2 X Y); [apply C|apply C'|].
    pose proof (plastic_offsets _ _ _ _ _ _ _ C C'). lra.
  Qed.
  Lemma mean_le : forall f f', (forall x y, (x < n)%nat -> (y < m)%nat -> f x y <= f' x y) -> mean g f <= mean g f'.
  Proof.
    intros f f' L. apply (Rmult_le_reg_l N); [exact P|]. rewrite <- !(mean_total n m N2 M2). apply Rsum2_le. exact L.
  Qed.
  Lemma mean_const : forall a, mean g (fun _ _ => a) = a.
  Proof. intros a. apply (Rmult_eq_reg_l N); [|lra]. rewrite <- (mean_total n m N2 M2), Rsum2_const. ring. Qed.
  Lemma plastic_load : forall h delta delta' p u p' u', in_plastic_contact g lx ly H h delta p u -> in_plastic_contact g lx ly H h delta' p' u' ->
    delta <= delta' -> mean g p <= mean g p' <= mean g p + k0 * (delta' - delta).
  Proof.
    intros h delta delta' p u p' u' C C' L. pose proof (plastic_offsets _ _ _ _ _ _ _ C' C) as D.
    pose proof (distance_mean n m lx ly N2 M2 X Y p' u' p u (proj1 C') (proj1 C)) as Q.
    assert (E : (mean g p' - mean g p) ^ 2 <= k0 * ((delta' - delta) * (mean g p' - mean g p))).
    { apply (Rmult_le_reg_l N); [exact P|]. eapply Rle_trans; [exact Q|].
      replace (N * (k0 * ((delta' - delta) * (mean g p' - mean g p))))
        with (k0 * ((delta' - delta) * (N * (mean g p' - mean g p)))) by ring. apply Rmult_le_compat_l; lra. }
    set (z := mean g p' - mean g p) in *. set (d := delta' - delta) in *.
    assert (D0 : 0 <= k0 * d) by (apply Rmult_le_pos; unfold d; lra).
    assert (Z0 : 0 <= z).
    { destruct (Rle_lt_dec 0 z) as [Z|Z]; [exact Z|]. exfalso. assert (0 < z ^ 2) by nra. nra. }
    assert (Z1 : z <= k0 * d).
    { destruct (Rle_lt_dec z (k0 * d)) as [Z|Z]; [exact Z|]. exfalso. nra. }
    unfold z in Z0, Z1. lra.
  Qed.
  Lemma plastic_range : forall h delta p u, in_plastic_contact g lx ly H h delta p u -> 0 <= mean g p <= H.
  Proof.
    intros h delta p u [_ C]. pose proof (mean_const 0) as Z0. pose proof (mean_const H) as ZH.
    split; [rewrite <- Z0|rewrite <- ZH]; apply mean_le; intros x y Hx Hy; destruct (C x y (conj Hx Hy)) as ([? ?] & _); assumption.
  Qed.

  (** Below the hardness the problem is the elastic one. *)
  Lemma elastic_plastic : forall h delta p u, in_contact g lx ly h delta p u -> (forall x y, (x < n)%nat -> (y < m)%nat -> p x y <= H) ->
    in_plastic_contact g lx ly H h delta p u.
  Proof.
    intros h delta p u [PR C] L. split; [exact PR|]. intros x y [Hx Hy]. cbn in Hx, Hy. destruct (C x y (conj Hx Hy)) as (C1 & C2 & C3).
    split; [auto|]. split; [auto|]. intros Q. apply Rmult_integral in C3. lra.
  Qed.
  Lemma plastic_elastic : forall h delta p u, in_plastic_contact g lx ly H h delta p u -> (forall x y, (x < n)%nat -> (y < m)%nat -> p x y < H) ->
    in_contact g lx ly h delta p u.
  Proof.
    intros h delta p u [PR C] L. split; [exact PR|]. intros x y [Hx Hy]. cbn in Hx, Hy. destruct (C x y (conj Hx Hy)) as (C1 & C2 & C3).
    specialize (C2 (L x y Hx Hy)). split; [lra|]. split; [exact C2|]. destruct (Req_dec (p x y) 0) as [Z|Z]; [rewrite Z; ring|].
    replace (gap h delta u x y) with 0; [ring|]. assert (gap h delta u x y <= 0) by (apply C3; lra). lra.
  Qed.

  (** The flattened surface carries the same state elastically. *)
  Lemma flattened_contact : forall h delta p u, in_plastic_contact g lx ly H h delta p u ->
    in_contact g lx ly (flattened H h delta p u) delta p u
    /\ forall x y, (x < n)%nat -> (y < m)%nat -> 0 < p x y \/ 0 < H -> flattened H h delta p u x y <= h x y.
  Proof.
    intros h delta p u [PR C]. split.
    - split; [exact PR|]. intros x y Q. destruct (C x y Q) as (C1 & C2 & C3). split; [lra|]. unfold gap, flattened in *.
      destruct (Rlt_dec (p x y) H) as [L|L].
      + specialize (C2 L). split; [exact C2|]. destruct (Req_dec (p x y) 0) as [Z|Z]; [rewrite Z; ring|].
        assert (u x y - h x y - delta <= 0) by (apply C3; lra). replace (u x y - h x y - delta) with 0 by lra. ring.
      + split; [lra|ring].
    - intros x y Hx Hy Q. destruct (C x y (conj Hx Hy)) as (C1 & C2 & C3). unfold flattened. destruct (Rlt_dec (p x y) H) as [L|L]; [lra|].
      unfold gap in C3. assert (u x y - h x y - delta <= 0) by (apply C3; lra). lra.
  Qed.

  (** Everything yields. *)
  Lemma full_state : forall h delta, (forall x y, (x < n)%nat -> (y < m)%nat -> H / k0 <= h x y + delta) ->
    in_plastic_contact g lx ly H h delta (fun _ _ => H) (fun _ _ => H / k0).
  Proof.
    intros h delta L. split.
    - pose proof (Contact_Load.uniform_response g lx ly (H / k0) ltac:(cbn; lia) ltac:(cbn; lia) K) as R1.
      change (Contact_Load.uniform_stiffness g lx ly) with k0 in R1. replace (k0 * (H / k0)) with H in R1 by (field; lra). exact R1.
    - intros x y [Hx Hy]. cbn in Hx, Hy. split; [lra|]. split; [lra|]. intros _. unfold gap. specialize (L x y Hx Hy). lra.
  Qed.
  Lemma plastic_full : forall h delta p u, 0 < H -> in_plastic_contact g lx ly H h delta p u ->
    ((forall x y, (x < n)%nat -> (y < m)%nat -> p x y = H) <-> (forall x y, (x < n)%nat -> (y < m)%nat -> H / k0 <= h x y + delta)).
  Proof.
    intros h delta p u PP C. split.
    - intros E x y Hx Hy. pose proof (Contact_Load.uniform_response g lx ly (H / k0) ltac:(cbn; lia) ltac:(cbn; lia) K) as R1.
      change (Contact_Load.uniform_stiffness g lx ly) with k0 in R1. replace (k0 * (H / k0)) with H in R1 by (field; lra).
      assert (U : u x y = H / k0).
      { rewrite (response_Comp n m lx ly N2 M2 X Y p u (proj1 C) x y Hx Hy).
        change (H / k0) with ((fun _ _ : nat => H / k0) x y). rewrite (response_Comp n m lx ly N2 M2 X Y _ _ R1 x y Hx Hy).
        apply mult_ext. exact E. }
      destruct (proj2 C x y (conj Hx Hy)) as (_ & _ & C3). rewrite E in C3 by assumption. specialize (C3 PP). unfold gap in C3. lra.
    - intros L x y Hx Hy. apply (plastic_unique h delta p u _ _ C (full_state h delta L)); assumption.
  Qed.

  (** No contact. *)
  Lemma plastic_none : forall h delta p u, in_plastic_contact g lx ly H h delta p u ->
    (forall x y, (x < n)%nat -> (y < m)%nat -> h x y + delta <= 0) -> mean g p = 0.
  Proof.
    intros h delta p u C L.
    assert (E0 : forall x y, (x < n)%nat -> (y < m)%nat -> Cf (fun _ _ => 0) x y = 0).
    { intros x y Hx Hy. pose proof (Comp_sub n m lx ly N2 M2 (fun _ _ => 0) (fun _ _ => 0) x y Hx Hy) as E. unfold Comp in *.
      rewrite (mult_ext n m (Sym n m lx ly) (fun _ _ => 0 - 0) (fun _ _ => 0)) in E by (intros; ring). lra. }
    assert (Z : in_plastic_contact g lx ly H h delta (fun _ _ => 0) (Cf (fun _ _ => 0))).
    { split; [apply Comp_response; assumption|]. intros x y [Hx Hy]. cbn in Hx, Hy. split; [lra|].
      unfold gap. rewrite E0 by assumption. specialize (L x y Hx Hy). split; intros; lra. }
    rewrite <- (mean_const 0). apply Rle_antisym; apply mean_le; intros x y Hx Hy;
      destruct (plastic_unique _ _ _ _ _ _ C Z x y Hx Hy) as [E _]; lra.
  Qed.

  (** Every load below the hardness. *)
  Lemma plastic_at_load : forall h F, 0 <= F <= H -> exists delta p u, in_plastic_contact g lx ly H h delta p u /\ mean g p = F.
  Proof.
    intros h F PF. destruct (plastic_exists h) as [p C].
    destruct (bounds_2 n m (fun x y => 1 + Rabs (h x y))) as (a & b & _ & Bp & B).
    { intros i j _ _. pose proof (Rabs_pos (h i j)). lra. }
    assert (CT : continuity (fun d => mean g (p d))).
    { intros d eps PE. exists (eps / k0). split; [apply Rdiv_lt_0_compat; assumption|]. intros z [_ Z].
      unfold R_dist, dist in *. cbn in *. unfold R_dist in *.
      assert (Q : Rabs (mean g (p z) - mean g (p d)) <= k0 * Rabs (z - d)).
      { destruct (Rle_dec d z) as [L|L].
        - pose proof (plastic_load _ _ _ _ _ _ _ (C d) (C z) L). rewrite (Rabs_pos_eq (z - d)) by lra. rewrite Rabs_pos_eq by lra. lra.
        - apply Rnot_le_lt in L. pose proof (plastic_load _ _ _ _ _ _ _ (C z) (C d) (Rlt_le _ _ L)).
          rewrite (Rabs_left1 (z - d)) by lra. rewrite Rabs_left1 by lra. lra. }
      eapply Rle_lt_trans; [exact Q|]. apply (Rmult_lt_reg_l (/ k0)); [apply Rinv_0_lt_compat; exact K|].
      rewrite <- Rmult_assoc, Rinv_l, Rmult_1_l by lra. rewrite Rmult_comm. exact Z. }
    assert (LO : mean g (p (- b)) = 0).
    { apply (plastic_none h (- b) _ _ (C (- b))). intros x y Hx Hy. destruct (B x y Hx Hy) as [_ B2].
      pose proof (Rle_abs (h x y)). lra. }
    assert (HI : mean g (p (H / k0 + b)) = H).
    { assert (FS : in_plastic_contact g lx ly H h (H / k0 + b) (fun _ _ => H) (fun _ _ => H / k0)).
      { apply full_state. intros x y Hx Hy. destruct (B x y Hx Hy) as [_ B2]. pose proof (Rle_abs (- h x y)). rewrite Rabs_Ropp in *. lra. }
      rewrite <- (mean_const H) at 2. apply Rle_antisym; apply mean_le; intros x y Hx Hy;
      destruct (plastic_unique _ _ _ _ _ _ (C (H / k0 + b)) FS x y Hx Hy) as [E _]; lra. }
    destruct (IVT_gen (fun d => mean g (p d)) (- b) (H / k0 + b) F CT) as (d & _ & E).
    { rewrite LO, HI. rewrite Rmin_left, Rmax_right by lra. lra. }
    exists d, (p d), (Cf (p d)). auto.
  Qed.
  Lemma plastic_load_unique : forall h delta p u delta' p' u', in_plastic_contact g lx ly H h delta p u -> in_plastic_contact g lx ly H h delta' p' u' ->
    mean g p = mean g p' -> forall x y, (x < n)%nat -> (y < m)%nat -> p x y = p' x y /\ u x y = u' x y.
  Proof.
    intros h delta p u delta' p' u' C C' E. pose proof (plastic_offsets _ _ _ _ _ _ _ C C') as D.
    apply (distance_zero n m lx ly N2 M2 X Y); [apply C|apply C'|]. rewrite E in D. lra.
  Qed.

  (** States that meet the conditions within [eps]. *)
  Lemma plastic_load_error : forall h delta p u ps us eps, response p u -> in_plastic_contact g lx ly H h delta ps us ->
    0 <= eps -> nearly_in_plastic_contact g H h delta p u eps -> Rabs (sqrt (mean g p) - sqrt (mean g ps)) <= sqrt (k0 * eps).
  Proof.
    intros h delta p u ps us eps R1 C PE V.
    pose proof (plastic_pair h delta delta p u ps us eps 0 V (plastic_near _ _ _ _ C) PE (Rle_refl 0)) as D.
    pose proof (distance_mean n m lx ly N2 M2 X Y p u ps us R1 (proj1 C)) as Q.
    assert (A : 0 <= mean g p).
    { rewrite <- (mean_const 0). apply mean_le. intros x y Hx Hy. destruct (V x y (conj Hx Hy)) as ([? _] & _). assumption. }
    destruct (plastic_range h delta ps us C) as [B _].
    assert (E : (mean g p - mean g ps) ^ 2 <= k0 * eps * (mean g p + mean g ps)).
    { apply (Rmult_le_reg_l N); [exact P|]. eapply Rle_trans; [exact Q|].
      replace (N * (k0 * eps * (mean g p + mean g ps))) with (k0 * (eps * (N * (mean g p + mean g ps)))) by ring.
      apply Rmult_le_compat_l; [lra|]. lra. }
    set (a := sqrt (mean g p)). set (b := sqrt (mean g ps)). assert (KE : 0 <= k0 * eps) by (apply Rmult_le_pos; lra).
    assert (A2 : mean g p = a * a) by (unfold a; rewrite sqrt_sqrt; auto).
    assert (B2 : mean g ps = b * b) by (unfold b; rewrite sqrt_sqrt; auto).
    assert (A0 : 0 <= a) by apply sqrt_pos. assert (B0 : 0 <= b) by apply sqrt_pos. rewrite A2, B2 in E. clearbody a b. clear A2 B2 D Q A B.
    assert (W : (a - b) ^ 2 <= k0 * eps).
    { destruct (Req_dec (a + b) 0) as [Z|Z].
      - assert (a = 0) by lra. assert (b = 0) by lra. subst. lra.
      - apply (Rmult_le_reg_l ((a + b) ^ 2)); [apply pow2_gt_0; exact Z|].
        apply Rle_trans with ((a * a - b * b) ^ 2); [apply Req_le; ring|]. eapply Rle_trans; [exact E|].
        rewrite (Rmult_comm ((a + b) ^ 2)). apply Rmult_le_compat_l; [exact KE|]. nra. }
    rewrite <- sqrt_Rsqr_abs. apply sqrt_le_1_alt. unfold Rsqr. lra.
  Qed.
End Plastic.
