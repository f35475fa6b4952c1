(** * Energy and work of contact states *)
From Coq Require Import Reals Lia Lra List Arith Bool.
From Coquelicot Require Import Complex Coquelicot.
From Verif Require Import FFT_Base HalfSpace_Spec HalfSpace_Results Contact_Spec Signorini_Spec Signorini_Base Signorini_Periodic Work_Spec.
From Coq Require Import List.
Import ListNotations.
Local Open Scope R_scope.

Section Work.
  Variables (n m : nat) (lx ly : R).
  Hypothesis N2 : (2 <= n)%nat.
  Hypothesis M2 : (2 <= m)%nat.
  Hypothesis X : 0 < lx.
  Hypothesis Y : 0 < ly.
  Local Notation g := [n; m].
  Local Notation k0 := (uniform g lx ly).
  Local Notation N := (INR n * INR m).
  Local Notation response := (periodic_response g lx ly).
  Let PX : (0 < n)%nat := Nat.lt_le_trans 0 2 n Nat.lt_0_2 N2.
  Let PY : (0 < m)%nat := Nat.lt_le_trans 0 2 m Nat.lt_0_2 M2.

  Lemma Comp_zero : forall x y, (x < n)%nat -> (y < m)%nat -> Comp n m lx ly (fun _ _ => 0) x y = 0.
  Proof.
    intros x y Hx Hy. pose proof (Comp_sub n m lx ly N2 M2 (fun _ _ => 0) (fun _ _ => 0) x y Hx Hy) as A. cbv beta in A.
    assert (B : Comp n m lx ly (fun _ _ => 0 - 0) x y = Comp n m lx ly (fun _ _ => 0) x y) by (apply mult_ext; intros; ring).
    rewrite B in A. lra.
  Qed.
  Lemma inner_R : forall f f', inner g f f' = Rsum2 n m (fun x y => f x y * f' x y).
  Proof. reflexivity. Qed.
  Lemma reciprocal : forall p u p' u', response p u -> response p' u' -> inner g p u' = inner g p' u.
  Proof.
    intros p u p' u' R1 R2. rewrite !inner_R.
    rewrite (Rsum2_ext n m _ (fun x y => p x y * mult n m (Sym n m lx ly) p' x y)).
    2:{ intros x y Hx Hy. rewrite (response_Comp n m lx ly N2 M2 X Y p' u' R2 x y Hx Hy). reflexivity. }
    rewrite (Rsum2_ext n m (fun x y => p' x y * u x y) (fun x y => p' x y * mult n m (Sym n m lx ly) p x y)).
    2:{ intros x y Hx Hy. rewrite (response_Comp n m lx ly N2 M2 X Y p u R1 x y Hx Hy). reflexivity. }
    apply (mult_adjoint n m PX PY (Sym n m lx ly) p p'); [apply Sym_Herm; assumption|]. intros k l _ _. unfold Sym. apply Cconj_RtoC.
  Qed.
  Lemma distance_nonneg : forall p u p' u', response p u -> response p' u' -> 0 <= distance g p u p' u'.
  Proof.
    intros p u p' u' R1 R2. rewrite (distance_Comp n m lx ly N2 M2 X Y p u p' u' R1 R2).
    pose proof (Comp_low n m lx ly N2 M2 0 (fun x y => p x y - p' x y)
      (fun k l K L => Rlt_le _ _ (sym_pos n m lx ly N2 M2 X Y k l K L))) as A. lra.
  Qed.
  Lemma distance_expand : forall p u p' u', response p u -> response p' u' ->
    distance g p u p' u' = inner g p u - 2 * inner g p u' + inner g p' u'.
  Proof.
    intros p u p' u' R1 R2. replace (2 * inner g p u') with (inner g p u' + inner g p' u) by (rewrite (reciprocal p u p' u' R1 R2); ring).
    unfold distance. rewrite !inner_R.
    replace (Rsum2 n m (fun x y => p x y * u x y) - (Rsum2 n m (fun x y => p x y * u' x y) + Rsum2 n m (fun x y => p' x y * u x y)) +
      Rsum2 n m (fun x y => p' x y * u' x y))
      with (Rsum2 n m (fun x y => p x y * u x y) + -1 * (Rsum2 n m (fun x y => p x y * u' x y) + Rsum2 n m (fun x y => p' x y * u x y)) +
      Rsum2 n m (fun x y => p' x y * u' x y)) by ring.
    rewrite <- Rsum2_plus, <- Rsum2_scal, <- !Rsum2_plus. apply Rsum2_ext. intros. ring.
  Qed.
  Lemma inner_gap : forall q h delta u, inner g q (gap h delta u) = inner g q u - inner g q (fun x y => h x y + delta).
  Proof.
    intros. rewrite !inner_R. unfold gap.
    replace (Rsum2 n m (fun x y => q x y * u x y) - Rsum2 n m (fun x y => q x y * (h x y + delta)))
      with (Rsum2 n m (fun x y => q x y * u x y) + -1 * Rsum2 n m (fun x y => q x y * (h x y + delta))) by ring.
    rewrite <- Rsum2_scal, <- Rsum2_plus. apply Rsum2_ext. intros. ring.
  Qed.
  Lemma inner_nonneg : forall q f, (forall x y, on_grid g x y -> 0 <= q x y * f x y) -> 0 <= inner g q f.
  Proof. intros q f H. rewrite inner_R. apply Rsum2_nonneg. intros x y Hx Hy. apply H. split; assumption. Qed.
  Lemma inner_surface : forall q h delta h' delta',
    inner g q (fun x y => h' x y + delta') - inner g q (fun x y => h x y + delta)
    = inner g q (fun x y => (h' x y + delta') - (h x y + delta)).
  Proof.
    intros. rewrite !inner_R.
    replace (Rsum2 n m (fun x y => q x y * (h' x y + delta')) - Rsum2 n m (fun x y => q x y * (h x y + delta)))
      with (Rsum2 n m (fun x y => q x y * (h' x y + delta')) + -1 * Rsum2 n m (fun x y => q x y * (h x y + delta))) by ring.
    rewrite <- Rsum2_scal, <- Rsum2_plus. apply Rsum2_ext. intros. ring.
  Qed.
  Lemma gap_work : forall h delta p u, in_contact g lx ly h delta p u -> inner g p (gap h delta u) = 0.
  Proof.
    intros h delta p u [_ C]. rewrite inner_R. rewrite (Rsum2_ext n m _ (fun _ _ => 0)); [rewrite Rsum2_const; ring|].
    intros x y Hx Hy. apply C. split; assumption.
  Qed.

  (** Both states need only be near: [e] bounds what the pressure of the one does
      on its own gap, [e'] what it does on the gap of the other. *)
  Lemma work_low : forall h delta h' delta' p u p' u' e e', response p u -> response p' u' ->
    inner g p (gap h delta u) <= e -> - e' <= inner g p (gap h' delta' u') ->
    stored g p u + inner g p (fun x y => (h' x y + delta') - (h x y + delta)) - (e + e') <= stored g p' u'.
  Proof.
    intros h delta h' delta' p u p' u' e e' R1 R2 A B. pose proof (distance_nonneg p u p' u' R1 R2) as D.
    rewrite (distance_expand p u p' u' R1 R2) in D. rewrite inner_gap in A, B. rewrite <- inner_surface. unfold stored. lra.
  Qed.
  Lemma work_between : forall h delta h' delta' p u p' u', in_contact g lx ly h delta p u -> in_contact g lx ly h' delta' p' u' ->
    inner g p (fun x y => (h' x y + delta') - (h x y + delta)) <= stored g p' u' - stored g p u
    <= inner g p' (fun x y => (h' x y + delta') - (h x y + delta)).
  Proof.
    intros h delta h' delta' p u p' u' C C'.
    assert (Z : forall q v hh dd, in_contact g lx ly hh dd q v -> inner g q (gap hh dd v) <= 0) by (intros; right; eapply gap_work; eassumption).
    assert (Q : forall q v hh dd q' v' hh' dd', in_contact g lx ly hh dd q v -> in_contact g lx ly hh' dd' q' v' -> - 0 <= inner g q (gap hh' dd' v')).
    { intros q v hh dd q' v' hh' dd' [_ A] [_ B]. rewrite Ropp_0. apply inner_nonneg. intros x y O. apply Rmult_le_pos; [apply (A x y O)|apply (B x y O)]. }
    pose proof (work_low h delta h' delta' p u p' u' 0 0 (proj1 C) (proj1 C') (Z _ _ _ _ C) (Q _ _ _ _ _ _ _ _ C C')) as L.
    pose proof (work_low h' delta' h delta p' u' p u 0 0 (proj1 C') (proj1 C) (Z _ _ _ _ C') (Q _ _ _ _ _ _ _ _ C' C)) as U.
    assert (E : inner g p' (fun x y => h x y + delta - (h' x y + delta')) = - inner g p' (fun x y => h' x y + delta' - (h x y + delta)))
      by (rewrite <- !inner_surface; ring).
    lra.
  Qed.
  Lemma inner_const : forall q a, inner g q (fun _ _ => a) = a * HalfSpace_Spec.total g q.
  Proof. intros. rewrite inner_R. unfold HalfSpace_Spec.total. cbn [gx gy nth]. rewrite <- Rsum2_scal. apply Rsum2_ext. intros; ring. Qed.
  Lemma inner_shift : forall q h a b, inner g q (fun x y => (h x y + b) - (h x y + a)) = (b - a) * HalfSpace_Spec.total g q.
  Proof. intros. rewrite <- inner_const, !inner_R. apply Rsum2_ext. intros; ring. Qed.

  (** ** Pushing one surface *)
  Section Family.
    Variables (h : field) (P U : R -> field).
    Hypothesis F : forall delta, in_contact g lx ly h delta (P delta) (U delta).
    Local Notation W := (fun delta => stored g (P delta) (U delta)).
    Local Notation L := (fun delta => HalfSpace_Spec.total g (P delta)).
    Lemma family_bracket : forall a b, (b - a) * L a <= W b - W a <= (b - a) * L b.
    Proof. intros a b. pose proof (work_between h a h b _ _ _ _ (F a) (F b)) as B. rewrite !inner_shift in B. exact B. Qed.
    Lemma total_mean : forall q, HalfSpace_Spec.total g q = N * mean g q.
    Proof. intros q. apply (mean_total n m N2 M2). Qed.
    Lemma family_lipschitz : forall a b, Rabs (L b - L a) <= N * k0 * Rabs (b - a).
    Proof.
      assert (G : forall a b, a <= b -> 0 <= L b - L a <= N * k0 * (b - a)).
      { intros a b AB. pose proof (contact_load n m lx ly N2 M2 X Y h a b _ _ _ _ (F a) (F b) AB) as [B1 B2].
        pose proof (N_pos n m N2 M2) as NP. rewrite !total_mean. split; [nra|]. rewrite Rmult_assoc. nra. }
      intros a b. destruct (Rle_dec a b) as [AB|AB].
      - destruct (G a b AB). rewrite !Rabs_pos_eq by lra. lra.
      - destruct (G b a ltac:(lra)). rewrite !Rabs_left1 by lra. lra.
    Qed.
    Lemma family_continuous : forall a, continuous L a.
    Proof.
      intros a. pose proof (N_pos n m N2 M2) as NP. pose proof (k0_pos n m lx ly N2 M2 X Y) as KP.
      assert (C : 0 < N * k0) by (apply Rmult_lt_0_compat; assumption).
      apply filterlim_locally. intros eps. exists (mkposreal (eps / (N * k0)) (Rdiv_lt_0_compat _ _ (cond_pos eps) C)).
      intros b B. unfold ball in *; cbn in B |- *. unfold AbsRing_ball, abs, minus, plus, opp in *; cbn in *.
      eapply Rle_lt_trans; [exact (family_lipschitz a b)|]. unfold Rdiv in B.
      apply (Rmult_lt_compat_l (N * k0)) in B; [|exact C]. replace (N * k0 * (eps * / (N * k0))) with (pos eps) in B by (field; split; [lra|split; nra]).
      exact B.
    Qed.
    Lemma family_derive : forall a, is_derive W a (L a).
    Proof.
      intros a. pose proof (N_pos n m N2 M2) as NP. pose proof (k0_pos n m lx ly N2 M2 X Y) as KP.
      assert (C : 0 < N * k0) by (apply Rmult_lt_0_compat; assumption).
      split; [apply is_linear_scal_l|]. intros x Hx.
      assert (E0 : a = x) by exact (@is_filter_lim_locally_unique _ R_NormedModule a x Hx). subst x.
      intros eps. exists (mkposreal (eps / (N * k0)) (Rdiv_lt_0_compat _ _ (cond_pos eps) C)). intros b B.
      unfold ball in B; cbn in B. unfold AbsRing_ball, abs, minus, plus, opp in B; cbn in B.
      unfold norm, minus, plus, opp, scal; cbn. unfold mult, abs; cbn.
      destruct (family_bracket a b) as [B1 B2]. pose proof (family_lipschitz a b) as LI.
      assert (E : Rabs (W b + - W a + - ((b + - a) * L a)) <= Rabs (b - a) * Rabs (L b - L a)).
      { rewrite <- Rabs_mult. rewrite (Rabs_pos_eq (W b + - W a + - ((b + - a) * L a))) by lra.
        eapply Rle_trans; [|apply Rle_abs]. lra. }
      eapply Rle_trans; [exact E|]. fold (b - a) in B |- *.
      rewrite (Rmult_comm eps). apply Rmult_le_compat_l; [apply Rabs_pos|]. eapply Rle_trans; [exact LI|].
      apply (Rmult_lt_compat_l (N * k0)) in B; [|exact C]. unfold Rdiv in B.
      replace (N * k0 * (eps * / (N * k0))) with (pos eps) in B by (field; split; [lra|split; nra]). left. exact B.
    Qed.
    Lemma family_work : forall a b, is_RInt L a b (W b - W a).
    Proof.
      intros a b. apply (is_RInt_derive (V := R_CompleteNormedModule) W L).
      - intros x _. apply family_derive.
      - intros x _. apply family_continuous.
    Qed.
  End Family.

  (** ** Minimum principles *)
  Lemma least_energy : forall h delta p u q v, in_contact g lx ly h delta p u -> response q v ->
    (forall x y, on_grid g x y -> 0 <= gap h delta v x y) -> stored g p u <= stored g q v.
  Proof.
    intros h delta p u q v C R V. pose proof (distance_nonneg q v p u R (proj1 C)) as D.
    rewrite (distance_expand q v p u R (proj1 C)), (reciprocal q v p u R (proj1 C)) in D.
    pose proof (gap_work h delta p u C) as Z. assert (B : 0 <= inner g p (gap h delta v)).
    { apply inner_nonneg. intros x y O. apply Rmult_le_pos; [apply (proj2 C x y O)|exact (V x y O)]. }
    rewrite inner_gap in Z, B. unfold stored. lra.
  Qed.
  Lemma least_complementary : forall h delta p u q v, in_contact g lx ly h delta p u -> response q v ->
    (forall x y, on_grid g x y -> 0 <= q x y) ->
    complementary g h delta p u = - stored g p u /\ complementary g h delta p u <= complementary g h delta q v.
  Proof.
    intros h delta p u q v C R V. pose proof (distance_nonneg q v p u R (proj1 C)) as D.
    rewrite (distance_expand q v p u R (proj1 C)) in D.
    pose proof (gap_work h delta p u C) as Z. assert (B : 0 <= inner g q (gap h delta u)).
    { apply inner_nonneg. intros x y O. apply Rmult_le_pos; [exact (V x y O)|apply (proj2 C x y O)]. }
    rewrite inner_gap in Z, B. unfold complementary, stored in *. lra.
  Qed.

  (** ** States that are only nearly in contact *)
  Lemma near_own : forall h delta p u eps, nearly_in_contact g h delta p u eps ->
    inner g p (gap h delta u) <= eps * HalfSpace_Spec.total g p.
  Proof.
    intros h delta p u eps V. rewrite inner_R. unfold HalfSpace_Spec.total. cbn [gx gy nth]. rewrite <- Rsum2_scal. apply Rsum2_le.
    intros x y Hx Hy. destruct (V x y (conj Hx Hy)) as (V1 & V2 & V3).
    destruct (Rle_lt_or_eq_dec _ _ V1) as [Q|Q]; [specialize (V3 Q); nra|rewrite <- Q; lra].
  Qed.
  Lemma near_other : forall q h delta p u eps, (forall x y, on_grid g x y -> 0 <= q x y) -> nearly_in_contact g h delta p u eps ->
    - (eps * HalfSpace_Spec.total g q) <= inner g q (gap h delta u).
  Proof.
    intros q h delta p u eps Q V. rewrite inner_R. unfold HalfSpace_Spec.total. cbn [gx gy nth].
    replace (- (eps * Rsum2 n m q)) with (- eps * Rsum2 n m q) by ring. rewrite <- Rsum2_scal. apply Rsum2_le.
    intros x y Hx Hy. specialize (Q x y (conj Hx Hy)). destruct (V x y (conj Hx Hy)) as (V1 & V2 & V3). nra.
  Qed.
  Lemma near_bracket : forall h delta delta' p u p' u' eps, response p u -> response p' u' ->
    nearly_in_contact g h delta p u eps -> nearly_in_contact g h delta' p' u' eps ->
    (delta' - delta - 2 * eps) * HalfSpace_Spec.total g p <= stored g p' u' - stored g p u
    <= (delta' - delta + 2 * eps) * HalfSpace_Spec.total g p'.
  Proof.
    intros h delta delta' p u p' u' eps R1 R2 V V'.
    assert (P0 : forall x y, on_grid g x y -> 0 <= p x y) by (intros x y O; apply (V x y O)).
    assert (P0' : forall x y, on_grid g x y -> 0 <= p' x y) by (intros x y O; apply (V' x y O)).
    pose proof (work_low h delta h delta' p u p' u' _ _ R1 R2 (near_own _ _ _ _ _ V) (near_other p h delta' p' u' eps P0 V')) as A.
    pose proof (work_low h delta' h delta p' u' p u _ _ R2 R1 (near_own _ _ _ _ _ V') (near_other p' h delta p u eps P0' V)) as B.
    rewrite inner_shift in A, B. lra.
  Qed.
  Lemma exact_near : forall h delta p u, in_contact g lx ly h delta p u -> nearly_in_contact g h delta p u 0.
  Proof.
    intros h delta p u [_ C] x y O. destruct (C x y O) as (A & B & D). split; [exact A|]. split; [lra|]. intros PP.
    apply Rmult_integral in D. lra.
  Qed.
  Lemma near_energy : forall h delta p u ps us eps, response p u -> in_contact g lx ly h delta ps us -> 0 <= eps ->
    nearly_in_contact g h delta p u eps ->
    - (eps * HalfSpace_Spec.total g ps) <= stored g p u - stored g ps us <= eps * HalfSpace_Spec.total g p.
  Proof.
    intros h delta p u ps us eps R C PE V.
    assert (P0 : forall x y, on_grid g x y -> 0 <= p x y) by (intros x y O; apply (V x y O)).
    assert (P1 : forall x y, on_grid g x y -> 0 <= ps x y) by (intros x y O; apply (proj2 C x y O)).
    pose proof (exact_near _ _ _ _ C) as V'.
    pose proof (work_low h delta h delta p u ps us _ _ R (proj1 C) (near_own _ _ _ _ _ V) (near_other p h delta ps us 0 P0 V')) as A.
    pose proof (work_low h delta h delta ps us p u _ _ (proj1 C) R (near_own _ _ _ _ _ V') (near_other ps h delta p u eps P1 V)) as B.
    rewrite inner_shift in A, B. lra.
  Qed.

  (** ** Another surface *)
  Lemma surface_near : forall h delta h' delta' p u eps, in_contact g lx ly h' delta' p u ->
    (forall x y, on_grid g x y -> Rabs ((h' x y + delta') - (h x y + delta)) <= eps) -> nearly_in_contact g h delta p u eps.
  Proof.
    intros h delta h' delta' p u eps [_ C] B x y O. destruct (C x y O) as (C1 & C2 & C3). specialize (B x y O).
    apply Rabs_le_between in B. unfold gap in *. split; [exact C1|]. split; [lra|]. intros PP. apply Rmult_integral in C3. lra.
  Qed.
End Work.
