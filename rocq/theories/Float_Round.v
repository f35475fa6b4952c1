(** * Rounding errors of the solver: proofs *)
From Coq Require Import Reals List Bool Arith Lia Lra Permutation.
From Verif Require Import Float_Model Float_Spec Float_Proofs Float_Round_Spec.
From Coq Require Import List.
Import ListNotations.
Local Open Scope R_scope.

(** ** Real numbers *)
Lemma close_rel : forall u x y, 0 <= u -> close u 0 y x -> exists d, - u <= d <= u /\ y = x * (1 + d).
Proof.
  intros u x y U H. unfold close in H. rewrite Rplus_0_r in H. destruct (Req_dec x 0) as [->|X].
  - exists 0. rewrite Rabs_R0 in *. rewrite Rmult_0_r in H. pose proof (Rabs_pos (y - 0)).
    assert (Z : Rabs (y - 0) = 0) by lra. split; [lra|].
    revert Z. unfold Rabs. destruct (Rcase_abs _); lra.
  - exists ((y - x) / x). split; [|field; exact X].
    assert (Q : Rabs ((y - x) / x) <= u).
    { unfold Rdiv. rewrite Rabs_mult, Rabs_inv. apply Rmult_le_reg_r with (Rabs x); [apply Rabs_pos_lt, X|].
      rewrite Rmult_assoc, Rinv_l, Rmult_1_r by (apply Rabs_no_R0, X). exact H. }
    revert Q. unfold Rabs. destruct (Rcase_abs _); lra.
Qed.
Lemma abs_le : forall x b, Rabs x <= b <-> - b <= x <= b.
Proof. intros x b. unfold Rabs. destruct (Rcase_abs x); lra. Qed.
Lemma abs_lt : forall x b, Rabs x < b <-> - b < x < b.
Proof. intros x b. unfold Rabs. destruct (Rcase_abs x); lra. Qed.

Section Round.
  Context {F P : Type}.
  Variable K : Arith F.
  Variable fin : F -> Prop.
  Hypothesis L : laws K fin.
  Variable val : F -> R.
  Variables u eta : R.
  Hypothesis V : rounding K fin val u eta.

  Lemma U0 : 0 <= u <= / 4.
  Proof. exact (v_unit _ _ _ _ _ V). Qed.
  Lemma E0 : 0 <= eta.
  Proof. exact (v_eta _ _ _ _ _ V). Qed.

  (** ** Sums *)
  Definition rsum (l : list F) : R := fold_right Rplus 0 (map val l).
  Definition rabs (l : list F) : R := fold_right Rplus 0 (map (fun x => Rabs (val x)) l).
  Lemma rsum_app : forall l l', rsum (l ++ l') = rsum l + rsum l'.
  Proof. intros l l'. unfold rsum. rewrite map_app. induction (map val l) as [|x k IH]; cbn [app fold_right]; lra. Qed.
  Lemma rabs_app : forall l l', rabs (l ++ l') = rabs l + rabs l'.
  Proof. intros l l'. unfold rabs. rewrite map_app. induction (map _ l) as [|x k IH]; cbn [app fold_right]; lra. Qed.
  Lemma rsum_perm : forall l l', Permutation l l' -> rsum l = rsum l'.
  Proof. intros l l' H. induction H; unfold rsum in *; cbn [map fold_right]; lra. Qed.
  Lemma rabs_perm : forall l l', Permutation l l' -> rabs l = rabs l'.
  Proof. intros l l' H. induction H; unfold rabs in *; cbn [map fold_right]; lra. Qed.
  Lemma rabs_pos : forall l, 0 <= rabs l.
  Proof.
    induction l as [|x l IH]; unfold rabs in *; cbn [map fold_right]; [lra|]. pose proof (Rabs_pos (val x)). lra.
  Qed.
  Lemma rsum_abs : forall l, Rabs (rsum l) <= rabs l.
  Proof.
    induction l as [|x l IH]; unfold rabs, rsum in *; cbn [map fold_right]; [rewrite Rabs_R0; lra|].
    eapply Rle_trans; [apply Rabs_triang|]. lra.
  Qed.
  Lemma pow_up : forall n, 1 <= (1 + u) ^ n.
  Proof. intro n. apply pow_R1_Rle. pose proof U0. lra. Qed.
  Lemma pow_more : forall n m, (n <= m)%nat -> (1 + u) ^ n <= (1 + u) ^ m.
  Proof. intros n m H. apply Rle_pow; [pose proof U0; lra|exact H]. Qed.

  Lemma summed_error : forall l a, summed K l a -> fin a ->
    Rabs (val a - rsum l) <= ((1 + u) ^ length l - 1) * rabs l.
  Proof.
    intros l a H. pose proof U0 as HU. induction H as [|x|l1 l2 a b H1 I1 H2 I2|l l' a P1 H1 I1]; intro Fa.
    - rewrite (v_zero _ _ _ _ _ V). unfold rsum, rabs. cbn. rewrite Rminus_0_r, Rabs_R0. lra.
    - unfold rsum, rabs. cbn [map fold_right length pow]. replace (val x - (val x + 0)) with 0 by ring.
      rewrite Rabs_R0. apply Rmult_le_pos; [lra|]. pose proof (Rabs_pos (val x)). lra.
    - destruct (l_add_fin K fin L _ _ Fa) as [A B]. specialize (I1 A). specialize (I2 B).
      rewrite rsum_app, rabs_app, app_length.
      pose proof (rabs_pos l1) as P1. pose proof (rabs_pos l2) as P2.
      assert (Z : forall l a, summed K l a -> length l = O -> fin a -> val a = 0).
      { clear - V L. intros l a H. induction H as [|x|l1 l2 a b H1 I1 H2 I2|l l' a Pm H1 I1]; intros E Fa.
        - apply (v_zero _ _ _ _ _ V).
        - discriminate.
        - rewrite app_length in E. destruct (l_add_fin K fin L _ _ Fa) as [A B].
          rewrite (v_add_zero _ _ _ _ _ V _ _ Fa), I1, I2; [lra|lia|exact B|lia|exact A|left; apply I1; [lia|exact A]].
        - apply Permutation_length in Pm. apply I1; [lia|exact Fa]. }
      destruct (length l1) as [|n1] eqn:N1.
      { assert (l1 = []) by (destruct l1; [reflexivity|discriminate]). subst l1.
        rewrite (v_add_zero _ _ _ _ _ V _ _ Fa) by (left; apply (Z [] a H1 eq_refl A)).
        rewrite (Z [] a H1 eq_refl A). cbn [plus]. unfold rsum at 1, rabs at 1. cbn [map fold_right].
        rewrite !Rplus_0_l. exact I2. }
      destruct (length l2) as [|n2] eqn:N2.
      { assert (l2 = []) by (destruct l2; [reflexivity|discriminate]). subst l2.
        rewrite (v_add_zero _ _ _ _ _ V _ _ Fa) by (right; apply (Z [] b H2 eq_refl B)).
        rewrite (Z [] b H2 eq_refl B), Nat.add_0_r. unfold rsum at 2, rabs at 2. cbn [map fold_right].
        rewrite !Rplus_0_r. exact I1. }
      pose proof (v_add _ _ _ _ _ V _ _ Fa) as C. unfold close in C.
      pose proof (rsum_abs l1) as S1. pose proof (rsum_abs l2) as S2.
      set (m := (n1 + S n2)%nat).
      assert (M1 : (1 + u) ^ S n1 <= (1 + u) ^ m) by (apply pow_more; unfold m; lia).
      assert (M2 : (1 + u) ^ S n2 <= (1 + u) ^ m) by (apply pow_more; unfold m; lia).
      change (S n1 + S n2)%nat with (S m). cbn [pow].
      pose proof (pow_up m) as PM. set (q := (1 + u) ^ m) in *.
      assert (J1 : Rabs (val a - rsum l1) <= (q - 1) * rabs l1) by (eapply Rle_trans; [exact I1|]; apply Rmult_le_compat_r; lra).
      assert (J2 : Rabs (val b - rsum l2) <= (q - 1) * rabs l2) by (eapply Rle_trans; [exact I2|]; apply Rmult_le_compat_r; lra).
      assert (T : Rabs (val a + val b) <= q * (rabs l1 + rabs l2)).
      { replace (val a + val b) with ((val a - rsum l1) + rsum l1 + ((val b - rsum l2) + rsum l2)) by ring.
        eapply Rle_trans; [apply Rabs_triang|].
        pose proof (Rabs_triang (val a - rsum l1) (rsum l1)). pose proof (Rabs_triang (val b - rsum l2) (rsum l2)). nra. }
      replace (val (aadd K a b) - (rsum l1 + rsum l2))
        with ((val (aadd K a b) - (val a + val b)) + ((val a - rsum l1) + (val b - rsum l2))) by ring.
      eapply Rle_trans; [apply Rabs_triang|].
      pose proof (Rabs_triang (val a - rsum l1) (val b - rsum l2)) as TT.
      assert (T' : u * Rabs (val a + val b) <= u * (q * (rabs l1 + rabs l2))) by (apply Rmult_le_compat_l; lra).
      nra.
    - rewrite <- (rsum_perm _ _ P1), <- (rabs_perm _ _ P1), <- (Permutation_length P1). exact (I1 Fa).
  Qed.

  (** Sums of numbers that are not negative. *)
  Lemma rsum_nonneg : forall l, (forall x, In x l -> 0 <= val x) -> 0 <= rsum l.
  Proof.
    induction l as [|x l IH]; intro H; unfold rsum in *; cbn [map fold_right]; [lra|].
    pose proof (H x (or_introl eq_refl)). assert (0 <= fold_right Rplus 0 (map val l)) by (apply IH; intros; apply H; right; assumption). lra.
  Qed.
  Lemma rsum_in : forall l x, (forall x, In x l -> 0 <= val x) -> In x l -> val x <= rsum l.
  Proof.
    induction l as [|y l IH]; intros x H I; [destruct I|]. unfold rsum in *. cbn [map fold_right].
    pose proof (H y (or_introl eq_refl)).
    pose proof (rsum_nonneg l (fun x I => H x (or_intror I))) as N. unfold rsum in N.
    destruct I as [->|I]; [lra|]. specialize (IH x (fun x I => H x (or_intror I)) I). lra.
  Qed.
  Lemma rabs_nonneg : forall l, (forall x, In x l -> 0 <= val x) -> rabs l = rsum l.
  Proof.
    induction l as [|x l IH]; intro H; unfold rabs, rsum in *; cbn [map fold_right]; [reflexivity|].
    rewrite IH by (intros; apply H; right; assumption). rewrite Rabs_pos_eq by (apply H; left; reflexivity). reflexivity.
  Qed.
  Lemma pow_low : forall n, 0 < (1 - u) ^ n <= 1.
  Proof.
    intro n. pose proof U0. split; [apply pow_lt; lra|].
    induction n as [|n IH]; cbn [pow]; [lra|]. assert (0 < (1 - u) ^ n) by (apply pow_lt; lra). nra.
  Qed.
  Lemma pow_less : forall n m, (n <= m)%nat -> (1 - u) ^ m <= (1 - u) ^ n.
  Proof.
    intros n m H. replace m with (n + (m - n))%nat by lia. rewrite pow_add.
    pose proof (pow_low n). pose proof (pow_low (m - n)). nra.
  Qed.
  Lemma summed_low : forall l a, summed K l a -> fin a -> (forall x, In x l -> 0 <= val x) ->
    (1 - u) ^ length l * rsum l <= val a.
  Proof.
    intros l a H. pose proof U0 as HU. induction H as [|x|l1 l2 a b H1 I1 H2 I2|l l' a P1 H1 I1]; intros Fa N.
    - rewrite (v_zero _ _ _ _ _ V). unfold rsum. cbn. lra.
    - unfold rsum. cbn [map fold_right length pow]. specialize (N x (or_introl eq_refl)). nra.
    - destruct (l_add_fin K fin L _ _ Fa) as [A B].
      assert (N1 : forall x, In x l1 -> 0 <= val x) by (intros x I; apply N, in_or_app; auto).
      assert (N2 : forall x, In x l2 -> 0 <= val x) by (intros x I; apply N, in_or_app; auto).
      specialize (I1 A N1). specialize (I2 B N2).
      rewrite rsum_app, app_length.
      pose proof (rsum_nonneg l1 N1) as P1. pose proof (rsum_nonneg l2 N2) as P2.
      pose proof (pow_low (length l1)) as W1. pose proof (pow_low (length l2)) as W2.
      assert (A0 : 0 <= val a) by nra. assert (B0 : 0 <= val b) by nra.
      destruct (Nat.eq_dec (length l1) 0) as [Z1|Z1].
      { assert (l1 = []) by (destruct l1; [reflexivity|discriminate]). subst l1.
        assert (SE : Rabs (val a - rsum []) <= ((1 + u) ^ length (@nil F) - 1) * rabs []) by (apply summed_error; assumption).
        unfold rsum, rabs in SE. cbn in SE. apply abs_le in SE. assert (Va : val a = 0) by lra.
        rewrite (v_add_zero _ _ _ _ _ V _ _ Fa) by (left; exact Va). cbn [length plus]. unfold rsum at 1. cbn [map fold_right]. lra. }
      destruct (Nat.eq_dec (length l2) 0) as [Z2|Z2].
      { assert (l2 = []) by (destruct l2; [reflexivity|discriminate]). subst l2.
        assert (SE : Rabs (val b - rsum []) <= ((1 + u) ^ length (@nil F) - 1) * rabs []) by (apply summed_error; assumption).
        unfold rsum, rabs in SE. cbn in SE. apply abs_le in SE. assert (Vb : val b = 0) by lra.
        rewrite (v_add_zero _ _ _ _ _ V _ _ Fa) by (right; exact Vb). cbn [length]. rewrite Nat.add_0_r.
        unfold rsum at 2. cbn [map fold_right]. lra. }
      destruct (close_rel u _ _ (proj1 HU) (v_add _ _ _ _ _ V _ _ Fa)) as (d & D & ->).
      set (m := (length l1 + length l2 - 1)%nat).
      assert (M1 : (1 - u) ^ m <= (1 - u) ^ length l1) by (apply pow_less; unfold m; lia).
      assert (M2 : (1 - u) ^ m <= (1 - u) ^ length l2) by (apply pow_less; unfold m; lia).
      replace (length l1 + length l2)%nat with (S m) by (unfold m; lia). cbn [pow].
      pose proof (pow_low m) as PM. set (q := (1 - u) ^ m) in *.
      assert (Q1 : q * rsum l1 <= val a) by nra. assert (Q2 : q * rsum l2 <= val b) by nra.
      assert (Q3 : q * (rsum l1 + rsum l2) <= val a + val b) by lra.
      assert (0 <= q * (rsum l1 + rsum l2)) by (apply Rmult_le_pos; lra). nra.
    - rewrite <- (rsum_perm _ _ P1), <- (Permutation_length P1). apply I1; [exact Fa|].
      intros x I. apply N. apply (Permutation_in _ P1 I).
  Qed.

  (** ** One step *)
  Variable c : fcfg (F:=F) (P:=P).
  Local Notation comp := (fcomp c).

  Lemma fin0 : fin (a0 K).
  Proof. exact (l_fin_zero K fin L). Qed.
  Lemma zl_val : forall x, zl K x -> fin x -> val x = 0.
  Proof.
    intros x [X|X] Fx; [|exfalso; exact (l_fin_nan K fin L x Fx X)].
    apply (v_eq _ _ _ _ _ V _ _ Fx fin0) in X. rewrite X. apply (v_zero _ _ _ _ _ V).
  Qed.
  Lemma not_lt : forall x y, fin x -> fin y -> alt K x y = false -> val y <= val x.
  Proof.
    intros x y X Y H. destruct (Rle_or_lt (val y) (val x)) as [Q|Q]; [exact Q|].
    apply (v_lt _ _ _ _ _ V _ _ X Y) in Q. congruence.
  Qed.

  Section Elastic.
    Hypothesis EL : k_hard c = None.

    (** Points that were not under compression stay so. *)
    Lemma inactive_tensile : forall s p, fcg K c s p = false -> fin (y_f (fcg_half K c s) p) ->
      ftensile K (fcg_half K c s) p = true.
    Proof.
      intros s p A Ff. set (h := fcg_half K c s) in *.
      assert (Y : y_f h p = aadd K (z_f s p) (amul K (amul K (a0 K) (y_tau h)) (y_t h p))).
      { unfold h, fcg_half. cbv zeta. cbn [y_f y_tau y_t]. rewrite A. reflexivity. }
      rewrite Y in Ff. destruct (l_add_fin K fin L _ _ Ff) as [F1 F2].
      assert (Z : val (amul K (amul K (a0 K) (y_tau h)) (y_t h p)) = 0).
      { apply zl_val; [|exact F2]. apply (zl_mul K fin L). left. apply (zl_mul K fin L). left. apply (zl_zero K fin L). }
      unfold fcg in A. rewrite EL in A. pose proof (not_lt _ _ F1 fin0 A) as N. rewrite (v_zero _ _ _ _ _ V) in N.
      unfold ftensile. rewrite Y.
      apply (v_le _ _ _ _ _ V _ _ fin0 Ff). rewrite (v_zero _ _ _ _ _ V).
      rewrite (v_add_zero _ _ _ _ _ V _ _ Ff) by (right; exact Z). lra.
    Qed.
    (** Finite forces at the end were finite before clipping and scaling. *)
    Lemma clip_fin : forall h p, In p (k_pts c) -> comp p = true -> fmix (y_str h) = false -> fany_nc K c h = false ->
      fin (fnew_force K c h p) -> fin (fclip K h p).
    Proof.
      intros h p I C M NC. unfold fnew_force. rewrite M, NC. unfold fclip_flow, fadjust. rewrite EL.
      destruct (k_ext c) as [Fx|]; [|exact (fun H => H)].
      destruct (aeq K _ (a0 K)) eqn:E; intro Ff.
      - apply (summed_fin K fin L (vals c comp (fclip K h)) (asum K (vals c comp (fclip K h)))); [apply (l_sum K fin L)| |].
        + apply (l_opp_fin K fin L). apply (v_eq_fin _ _ _ _ _ V _ _ E fin0).
        + apply (in_vals c comp (fclip K h)); assumption.
      - exact (proj1 (l_mul_fin K fin L _ _ Ff)).
    Qed.

    Hypothesis SP : spreads fin c.
    Hypothesis PT : fin (k_pentol c).
    Variable s : fstate (F:=F) (P:=P).
    Variable h : fhalf (F:=F) (P:=P).
    Hypothesis FI : ffirst K c s = inl h.
    Hypothesis CV : w_conv (fsecond K c s h) = true.
    Hypothesis ST : fnew_str K c h = FCg.
    Local Notation x := (k_disp c (fnew_force K c h)).
    Local Notation pt := (val (k_pentol c)).

    Lemma st_mix : fmix (y_str h) = false.
    Proof. unfold fnew_str in ST. destruct (fmix (y_str h)); [discriminate|reflexivity]. Qed.
    Lemma st_nc : fany_nc K c h = false.
    Proof. unfold fnew_str in ST. rewrite st_mix in ST. destruct (fany_nc K c h); [discriminate|reflexivity]. Qed.
    Lemma st_half : h = fcg_half K c s.
    Proof. exact (cg_first K c s h FI st_mix). Qed.

    Lemma scale_up : forall b q, 0 <= b -> b * (1 - u) <= q -> b <= (1 + 2 * u) * q.
    Proof.
      intros b q B H. pose proof U0 as HU.
      assert (b * 1 <= b * ((1 - u) * (1 + 2 * u))) by (apply Rmult_le_compat_l; [exact B|nra]).
      assert (b * (1 - u) * (1 + 2 * u) <= q * (1 + 2 * u)) by (apply Rmult_le_compat_r; lra). lra.
    Qed.
    (** The last change of the displacements. *)
    Lemma du_small : forall p, In p (k_pts c) -> Rabs (val (x p) - val (z_u s p)) <= (1 + 2 * u) * pt /\ 0 < pt.
    Proof.
      intros p I. pose proof (conv_du K fin L c s h CV p I) as D.
      pose proof (l_abs_small K fin L _ _ D) as Fd. pose proof U0 as HU.
      pose proof (v_abs_fin _ _ _ _ _ V _ Fd) as Fa.
      apply (v_lt _ _ _ _ _ V _ _ Fa PT) in D. rewrite (v_abs _ _ _ _ _ V) in D.
      destruct (close_rel u _ _ (proj1 HU) (v_sub _ _ _ _ _ V _ _ Fd)) as (d & Dd & E). rewrite E in D.
      rewrite Rabs_mult, (Rabs_pos_eq (1 + d)) in D by lra.
      pose proof (Rabs_pos (val (x p) - val (z_u s p))) as A0.
      assert (A1 : Rabs (val (x p) - val (z_u s p)) * (1 - u) <= Rabs (val (x p) - val (z_u s p)) * (1 + d)) by (apply Rmult_le_compat_l; lra).
      assert (A2 : 0 <= Rabs (val (x p) - val (z_u s p)) * (1 - u)) by (apply Rmult_le_pos; lra).
      split; [apply scale_up|]; lra.
    Qed.

    Lemma parts_fin : forall p, surface c p ->
      fin (y_g h p) /\ fin (asub K (z_u s p) (k_h c p)) /\ fin (y_off h) /\ fin (z_u s p) /\ fin (k_h c p)
      /\ y_g h p = asub K (asub K (z_u s p) (k_h c p)) (y_off h).
    Proof.
      intros p Sp. apply surf_comp in Sp. destruct Sp as [I Cp].
      pose proof (conv_gap K fin L c SP s h FI CV st_mix p I Cp) as G.
      assert (E : y_g h p = asub K (asub K (z_u s p) (k_h c p)) (y_off h)) by (rewrite st_half; reflexivity).
      rewrite E in *. destruct (l_sub_fin K fin L _ _ G) as [A B]. destruct (l_sub_fin K fin L _ _ A) as [C D]. tauto.
    Qed.
    Lemma force_fin : forall p, In p (k_pts c) -> fin (fnew_force K c h p).
    Proof. intros p I. apply SP; [|exact I]. exact (proj1 (conv_finite K fin L c s h CV)). Qed.

    (** The gap before the last step, computed and exact. *)
    Lemma gap_before : forall p, surface c p -> exists d, - u <= d <= u /\
      val (y_g h p) = (1 + d) * ((val (z_u s p) - val (k_h c p) - val (y_off h)) + (val (asub K (z_u s p) (k_h c p)) - (val (z_u s p) - val (k_h c p))))
      /\ Rabs (val (asub K (z_u s p) (k_h c p)) - (val (z_u s p) - val (k_h c p))) <= u * Rabs (val (z_u s p) - val (k_h c p)).
    Proof.
      intros p Sp. destruct (parts_fin p Sp) as (G & A & O & Z & H & E). pose proof U0 as HU.
      rewrite E in G |- *. destruct (close_rel u _ _ (proj1 HU) (v_sub _ _ _ _ _ V _ _ G)) as (d & D & Q).
      exists d. split; [exact D|]. split; [rewrite Q; ring|].
      pose proof (v_sub _ _ _ _ _ V _ _ A) as C. unfold close in C. rewrite Rplus_0_r in C. exact C.
    Qed.
    Lemma shift_size : forall p, surface c p ->
      u * Rabs (val (z_u s p) - val (k_h c p)) <= u * (Rabs (val (x p)) + Rabs (val (k_h c p))) + 2 * u * pt.
    Proof.
      intros p Sp. destruct (du_small p (proj1 Sp)) as [D PP]. pose proof U0 as HU.
      assert (T : Rabs (val (z_u s p) - val (k_h c p)) <= Rabs (val (x p)) + Rabs (val (k_h c p)) + (1 + 2 * u) * pt).
      { replace (val (z_u s p) - val (k_h c p)) with (val (x p) + - (val (k_h c p)) + - (val (x p) - val (z_u s p))) by ring.
        eapply Rle_trans; [apply Rabs_triang|]. rewrite Rabs_Ropp.
        pose proof (Rabs_triang (val (x p)) (- val (k_h c p))) as Q. rewrite Rabs_Ropp in Q. lra. }
      apply Rmult_le_compat_l with (r := u) in T; [|lra].
      assert (u * (u * pt) <= u * (/ 4 * pt)) by (apply Rmult_le_compat_l; [lra|apply Rmult_le_compat_r; lra]).
      assert (0 <= u * pt) by (apply Rmult_le_pos; lra). lra.
    Qed.

    Definition size (p : P) : R := Rabs (val (x p)) + Rabs (val (k_h c p)) + Rabs (val (y_off h)).

    (** Points that are not active did not overlap before the last step. *)
    Lemma inactive_tens : forall p, surface c p -> y_c h p = false -> ftensile K h p = true.
    Proof.
      intros p Sp A. pose proof (proj1 (surf_comp c p) Sp) as [I Cp].
      destruct (ftensile K h p) eqn:T; [reflexivity|exfalso].
      pose proof (clip_fin h p I Cp st_mix st_nc (force_fin p I)) as Fc. unfold fclip in Fc. rewrite T in Fc.
      pose proof st_half as SH. revert T Fc A. rewrite SH. intros T Fc A.
      rewrite (inactive_tensile s p A Fc) in T. discriminate.
    Qed.
    Lemma tens_gap : forall p, surface c p -> y_c h p = false -> alt K (y_g h p) (a0 K) = false.
    Proof.
      intros p Sp A. pose proof (inactive_tens p Sp A) as T. destruct (proj1 (surf_comp c p) Sp) as [I Cp].
      destruct (alt K (y_g h p) (a0 K)) eqn:G; [exfalso|reflexivity].
      pose proof st_nc as NC. unfold fany_nc in NC. rewrite (count_pos c (fnc K c h) p I) in NC; [discriminate|].
      unfold fnc. rewrite Cp, T, G. reflexivity.
    Qed.
    (** With a given offset they carry no force. *)
    Lemma inactive_zero : k_ext c = None -> forall p, surface c p -> y_c h p = false -> val (fnew_force K c h p) = 0.
    Proof.
      intros GO p Sp A. unfold fnew_force. rewrite st_mix, st_nc. unfold fclip_flow, fadjust. rewrite EL, GO.
      unfold fclip. rewrite (inactive_tens p Sp A). apply (v_zero _ _ _ _ _ V).
    Qed.

    (** No penetration. *)
    Lemma no_pen : (forall p, surface c p -> fin (asub K (aadd K (k_h c p) (y_off h)) (x p))) ->
      forall p, surface c p -> val (k_h c p) + val (y_off h) - val (x p) <= (1 + 4 * u) * pt + u * size p.
    Proof.
      intros NO p Sp. pose proof U0 as HU. pose proof (du_small p (proj1 Sp)) as [D PP].
      pose proof (shift_size p Sp) as S1. pose proof (Rabs_pos (val (y_off h))) as AO.
      pose proof (Rabs_pos (val (x p))) as AX. pose proof (Rabs_pos (val (k_h c p))) as AH. unfold size.
      destruct (y_c h p) eqn:A.
      - pose proof (conv_pen K fin L c s h CV st_mix NO p Sp A) as Q. specialize (NO p Sp).
        apply (v_lt _ _ _ _ _ V _ _ NO PT) in Q. destruct (l_sub_fin K fin L _ _ NO) as [F1 F2].
        destruct (close_rel u _ _ (proj1 HU) (v_sub _ _ _ _ _ V _ _ NO)) as (d & Dd & E). rewrite E in Q.
        pose proof (v_add _ _ _ _ _ V _ _ F1) as C. unfold close in C. rewrite Rplus_0_r in C.
        assert (T : Rabs (val (k_h c p) + val (y_off h)) <= Rabs (val (k_h c p)) + Rabs (val (y_off h))) by apply Rabs_triang.
        apply abs_le in C. set (a := val (aadd K (k_h c p) (y_off h))) in *.
        assert (W : a - val (x p) <= (1 + 2 * u) * pt).
        { destruct (Rle_or_lt (a - val (x p)) 0) as [Z|Z]; [nra|].
          assert (A1 : (a - val (x p)) * (1 - u) <= (a - val (x p)) * (1 + d)) by (apply Rmult_le_compat_l; lra).
          apply scale_up; lra. }
        assert (u * Rabs (val (k_h c p) + val (y_off h)) <= u * (Rabs (val (k_h c p)) + Rabs (val (y_off h)))) by (apply Rmult_le_compat_l; lra).
        nra.
      - pose proof (tens_gap p Sp A) as N.
        destruct (parts_fin p Sp) as (G & _). apply (not_lt _ _ G fin0) in N. rewrite (v_zero _ _ _ _ _ V) in N.
        destruct (gap_before p Sp) as (d & Dd & E & Q). rewrite E in N. apply abs_le in Q, D.
        assert (0 <= val (z_u s p) - val (k_h c p) - val (y_off h) + (val (asub K (z_u s p) (k_h c p)) - (val (z_u s p) - val (k_h c p)))) by nra.
        nra.
    Qed.

    (** Contact: the gap before the last step at active points. *)
    Definition touch (n A : R) : R := (1 + u) / (1 - u) ^ 4 * n * (A * pt ^ 2 + (A + 1) * eta).
    Lemma active_gap : (forall n, (n <= length (k_pts c))%nat -> fin (anat K n)) ->
      aeq K (y_tau h) (a0 K) = false ->
      forall p, surface c p -> y_c h p = true ->
      (val (y_g h p)) ^ 2 <= touch (/ (1 - u) ^ length (k_pts c)) (INR (y_Acg h)).
    Proof.
      intros FN T p Sp A. destruct (parts_fin p Sp) as (Fg & _). destruct (proj1 (surf_comp c p) Sp) as [I Cp].
      pose proof U0 as HU. pose proof E0 as HE. pose proof (proj2 (du_small p I)) as PP.
      destruct (conv_parts K c s h CV) as (_ & _ & _ & Q). destruct (Q st_mix) as [Q1 _]. clear Q.
      unfold fsecond in Q1. cbv zeta in Q1. cbn [w_rms] in Q1. unfold fnew_G in Q1. rewrite st_mix in Q1.
      pose proof st_half as SH. rewrite cg_half_eq in SH.
      assert (EA : y_Acg h = count c (fcg K c s)) by (rewrite SH; reflexivity).
      assert (EC : y_c h = fcg K c s) by (rewrite SH; reflexivity).
      assert (Eg : y_g h = q_g K c s) by (rewrite SH; reflexivity).
      assert (Et : y_tau h = q_tau K c s) by (rewrite SH; reflexivity).
      assert (AP : Nat.ltb 0 (y_Acg h) = true) by (rewrite EA; apply (count_pos c _ p I); rewrite <- EC; exact A).
      assert (CU : q_curved K c s = true).
      { destruct (q_curved K c s) eqn:CU; [reflexivity|exfalso]. rewrite Et in T. unfold q_tau in T. rewrite CU in T.
        rewrite (l_zero_eq K fin L) in T. discriminate. }
      assert (EG : y_G h = q_G K c s).
      { rewrite SH. cbn [y_G]. unfold q_curved in CU. apply andb_prop in CU. destruct CU as [CU1 CU2]. rewrite CU1, CU2. reflexivity. }
      rewrite AP, EG in Q1. set (nA := anat K (y_Acg h)) in *.
      assert (FA : fin nA).
      { apply FN. rewrite EA. unfold count. clear. induction (k_pts c) as [|q l IH]; cbn [filter length]; [lia|].
        destruct (fcg K c s q); cbn [length]; lia. }
      pose proof (v_below _ _ _ _ _ V _ _ Q1 PT (v_sqrt_sign _ _ _ _ _ V _)) as FR.
      apply (v_lt _ _ _ _ _ V _ _ FR PT) in Q1. destruct (v_sqrt_fin _ _ _ _ _ V _ FR) as [FD ND].
      destruct (close_rel u _ _ (proj1 HU) (v_sqrt _ _ _ _ _ V _ FR)) as (d1 & D1 & E1). rewrite E1 in Q1. clear E1.
      destruct (v_div_fin _ _ _ _ _ V _ _ FA FD) as [FG NZ].
      pose proof (v_div _ _ _ _ _ V _ _ FA FD) as C2. unfold close in C2.
      destruct (close_rel u _ _ (proj1 HU) (v_nat _ _ _ _ _ V _ FA)) as (d3 & D3 & E3). fold nA in E3.
      set (w := val (adiv K (q_G K c s) nA)) in *. set (a := INR (y_Acg h)) in *.
      assert (A1 : 1 <= a). { unfold a. apply Nat.ltb_lt in AP. apply (le_INR 1). exact AP. }
      (* the computed mean square *)
      assert (W : w <= pt ^ 2 / (1 - u) ^ 2).
      { assert (SQ : sqrt w * (1 - u) <= pt).
        { assert (sqrt w * (1 - u) <= sqrt w * (1 + d1)) by (apply Rmult_le_compat_l; [apply sqrt_pos|lra]). lra. }
        assert (0 <= sqrt w * (1 - u)) by (apply Rmult_le_pos; [apply sqrt_pos|lra]).
        assert (P2 : (sqrt w * (1 - u)) ^ 2 <= pt ^ 2) by (apply pow_incr; lra).
        rewrite Rpow_mult_distr in P2. replace (sqrt w ^ 2) with w in P2 by (cbn [pow]; rewrite Rmult_1_r, sqrt_sqrt; lra).
        apply Rmult_le_reg_r with ((1 - u) ^ 2); [apply pow_lt; lra|].
        unfold Rdiv. rewrite Rmult_assoc, Rinv_l, Rmult_1_r by (apply pow_nonzero; lra). exact P2. }
      (* the computed sum of squares *)
      set (G := val (q_G K c s)) in *.
      assert (VN : 0 < val nA <= a * (1 + u)) by (rewrite E3; split; [apply Rmult_lt_0_compat; lra|apply Rmult_le_compat_l; lra]).
      assert (NT : forall x, In x (vals c comp (fun p => amul K (btimes K (fcg K c s p) (q_g K c s p)) (q_g K c s p))) -> 0 <= val x).
      { intros x IX. pose proof (summed_fin K fin L _ _ (l_sum K fin L _) FG x IX) as Fx.
        apply vals_in in IX. destruct IX as (q & Iq & Cq & ->). destruct (fcg K c s q); cbn [btimes] in *.
        - apply (v_square _ _ _ _ _ V). exact Fx.
        - right. symmetry. apply zl_val; [|exact Fx]. apply (zl_mul K fin L). left. apply (zl_mul K fin L). left. apply (zl_zero K fin L). }
      pose proof (summed_low _ _ (l_sum K fin L _) FG NT) as SL. fold (q_G K c s) in SL. fold G in SL.
      pose proof (in_vals c comp (fun p => amul K (btimes K (fcg K c s p) (q_g K c s p)) (q_g K c s p)) p I Cp) as IV.
      pose proof (summed_fin K fin L _ _ (l_sum K fin L _) FG _ IV) as FT.
      pose proof (rsum_in _ _ NT IV) as TI.
      rewrite <- EC in FT, TI. rewrite A in FT, TI. cbn [btimes] in FT, TI.
      pose proof (v_mul _ _ _ _ _ V _ _ FT) as C4. unfold close in C4.
      rewrite <- EC in SL. rewrite <- Eg in *. set (g := val (y_g h p)) in *.
      set (t := val (amul K (y_g h p) (y_g h p))) in *.
      set (N := length (k_pts c)). set (m := length (vals c comp _)) in SL.
      assert (MN : (m <= N)%nat).
      { unfold m, vals, N. rewrite map_length. clear. induction (k_pts c) as [|q l IH]; cbn [filter length]; [lia|].
        destruct (comp q); cbn [length]; lia. }
      pose proof (pow_less m N MN) as PL. pose proof (pow_low N) as PN.
      set (r := rsum _) in *.
      assert (R0 : 0 <= r) by (apply rsum_nonneg; rewrite EC; exact NT).
      assert (GL : (1 - u) ^ N * t <= G).
      { apply Rle_trans with ((1 - u) ^ N * r); [apply Rmult_le_compat_l; lra|].
        apply Rle_trans with ((1 - u) ^ m * r); [apply Rmult_le_compat_r; lra|exact SL]. }
      assert (TL : g ^ 2 * (1 - u) <= t + eta).
      { apply abs_le in C4. rewrite (Rabs_pos_eq (g * g)) in C4 by apply Rle_0_sqr. cbn [pow]. rewrite Rmult_1_r. lra. }
      assert (G0 : 0 <= G).
      { apply Rle_trans with ((1 - u) ^ m * r); [|exact SL]. apply Rmult_le_pos; [|exact R0]. pose proof (pow_low m). lra. }
      assert (WL : G * (1 - u) <= (w + eta) * (a * (1 + u))).
      { assert (GQ : 0 <= G / val nA) by (apply Rmult_le_pos; [exact G0|left; apply Rinv_0_lt_compat, VN]).
        apply abs_le in C2. rewrite (Rabs_pos_eq _ GQ) in C2.
        assert (X : G / val nA * (1 - u) <= w + eta) by lra.
        apply Rmult_le_compat_r with (r := val nA) in X; [|lra].
        replace (G / val nA * (1 - u) * val nA) with (G * (1 - u)) in X by (field; lra).
        apply Rle_trans with (1 := X). apply Rmult_le_compat_l; lra. }
      assert (WU : w + eta <= (pt ^ 2 + eta) / (1 - u) ^ 2).
      { unfold Rdiv. rewrite Rmult_plus_distr_r. apply Rplus_le_compat; [exact W|].
        rewrite <- (Rmult_1_r eta) at 1. apply Rmult_le_compat_l; [exact HE|].
        pose proof (pow_low 2) as P2. apply Rmult_le_reg_r with ((1 - u) ^ 2); [lra|].
        rewrite Rinv_l by (apply pow_nonzero; lra). lra. }
      unfold touch.
      (* g^2 (1-u)^(N+4) <= (1+u) (a pt^2 + (a+1) eta) *)
      assert (FIN : g ^ 2 * ((1 - u) ^ N * (1 - u) ^ 4) <= (1 + u) * (a * pt ^ 2 + (a + 1) * eta)).
      { set (z := (1 - u) ^ N) in *.
        assert (B1 : G * (1 - u) ^ 3 <= a * (1 + u) * (pt ^ 2 + eta)).
        { replace (G * (1 - u) ^ 3) with (G * (1 - u) * (1 - u) ^ 2) by ring.
          apply Rle_trans with ((w + eta) * (a * (1 + u)) * (1 - u) ^ 2); [apply Rmult_le_compat_r; [apply pow_le; lra|exact WL]|].
          apply Rmult_le_compat_r with (r := (1 - u) ^ 2) in WU; [|apply pow_le; lra].
          unfold Rdiv in WU. rewrite Rmult_assoc, Rinv_l, Rmult_1_r in WU by (apply pow_nonzero; lra).
          apply Rmult_le_compat_l with (r := a * (1 + u)) in WU; [|apply Rmult_le_pos; lra]. lra. }
        assert (B2 : z * t * (1 - u) ^ 3 <= G * (1 - u) ^ 3) by (apply Rmult_le_compat_r; [apply pow_le; lra|exact GL]).
        assert (B3 : g ^ 2 * (1 - u) * (z * (1 - u) ^ 3) <= (t + eta) * (z * (1 - u) ^ 3)).
        { apply Rmult_le_compat_r; [|exact TL]. apply Rmult_le_pos; [lra|apply pow_le; lra]. }
        assert (B4 : z * (1 - u) ^ 3 <= 1 + u).
        { pose proof (pow_low 3). apply Rle_trans with (1 * 1); [apply Rmult_le_compat; lra|lra]. }
        assert (B5 : eta * (z * (1 - u) ^ 3) <= eta * (1 + u)) by (apply Rmult_le_compat_l; [exact HE|exact B4]).
        replace (g ^ 2 * (z * (1 - u) ^ 4)) with (g ^ 2 * (1 - u) * (z * (1 - u) ^ 3)) by ring. lra. }
      assert (ZP : 0 < (1 - u) ^ N * (1 - u) ^ 4) by (apply Rmult_lt_0_compat; apply pow_lt; lra).
      apply Rmult_le_reg_r with (1 := ZP). apply Rle_trans with (1 := FIN). right. field.
      split; lra || (apply pow_nonzero; lra).
    Qed.

    (** The gap at the end. *)
    Lemma gap_upper : forall p b, surface c p -> Rabs (val (y_g h p)) <= b ->
      val (x p) - val (k_h c p) - val (y_off h)
        <= (1 + 2 * u) * b + (1 + 4 * u) * pt + u * (Rabs (val (x p)) + Rabs (val (k_h c p))).
    Proof.
      intros p b Sp B. pose proof U0 as HU. destruct (du_small p (proj1 Sp)) as [D PP].
      destruct (gap_before p Sp) as (d & Dd & E & Q). pose proof (shift_size p Sp) as S1.
      apply abs_le in Q, D. set (e1 := val (asub K (z_u s p) (k_h c p)) - (val (z_u s p) - val (k_h c p))) in *.
      set (z := val (z_u s p) - val (k_h c p) - val (y_off h)) in *.
      assert (Z : Rabs (z + e1) <= (1 + 2 * u) * b).
      { apply scale_up; [apply Rabs_pos|]. apply Rle_trans with (2 := B). rewrite E, Rabs_mult, (Rabs_pos_eq (1 + d)), Rmult_comm by lra.
        apply Rmult_le_compat_r; [apply Rabs_pos|lra]. }
      apply abs_le in Z. replace (val (x p) - val (k_h c p) - val (y_off h)) with (z + (val (x p) - val (z_u s p))) by (unfold z; ring).
      lra.
    Qed.
  End Elastic.

  (** ** Matrix, load and accuracy *)
  Lemma fold_sum_le : forall (A : Type) (f g : A -> R) l, (forall x, In x l -> f x <= g x) ->
    fold_right Rplus 0 (map f l) <= fold_right Rplus 0 (map g l).
  Proof.
    intros A f g l H. induction l as [|x l IH]; cbn [map fold_right]; [lra|].
    apply Rplus_le_compat; [apply H; left; reflexivity|apply IH; intros; apply H; right; assumption].
  Qed.
  Lemma fold_sum_lin : forall (A : Type) (f g : A -> R) a b l,
    fold_right Rplus 0 (map (fun x => a * f x + b * g x) l)
    = a * fold_right Rplus 0 (map f l) + b * fold_right Rplus 0 (map g l).
  Proof. intros A f g a b l. induction l as [|x l IH]; cbn [map fold_right]; [lra|]. rewrite IH. ring. Qed.
  Lemma fold_sum_abs : forall (A : Type) (f : A -> R) l,
    Rabs (fold_right Rplus 0 (map f l)) <= fold_right Rplus 0 (map (fun x => Rabs (f x)) l).
  Proof.
    intros A f l. induction l as [|x l IH]; cbn [map fold_right]; [rewrite Rabs_R0; lra|].
    eapply Rle_trans; [apply Rabs_triang|]. lra.
  Qed.
  Lemma fold_sum_const : forall (A : Type) b (l : list A), fold_right Rplus 0 (map (fun _ => b) l) = INR (length l) * b.
  Proof.
    intros A b l. induction l as [|x l IH]; [cbn; lra|]. cbn [map fold_right length]. rewrite IH, S_INR. ring.
  Qed.
  Lemma fold_sum_ext : forall (A : Type) (f g : A -> R) l, (forall x, In x l -> f x = g x) ->
    fold_right Rplus 0 (map f l) = fold_right Rplus 0 (map g l).
  Proof. intros A f g l H. f_equal. apply map_ext_in. exact H. Qed.

  (** Products and their sum. *)
  Lemma matrix_error : forall (m f : P -> F) l a, summed K (map (fun q => amul K (m q) (f q)) l) a -> fin a ->
    Rabs (val a - fold_right Rplus 0 (map (fun q => val (m q) * val (f q)) l))
      <= ((1 + u) ^ (length l + 1) - 1) * fold_right Rplus 0 (map (fun q => Rabs (val (m q)) * Rabs (val (f q))) l)
         + (1 + u) ^ length l * INR (length l) * eta.
  Proof.
    intros m f l a Hs Fa. pose proof U0 as HU. pose proof E0 as HE.
    set (S := fold_right Rplus 0 (map (fun q => Rabs (val (m q)) * Rabs (val (f q))) l)).
    pose proof (summed_error _ _ Hs Fa) as E. rewrite map_length in E.
    assert (Fq : forall q, In q l -> fin (amul K (m q) (f q))).
    { intros q I. apply (summed_fin K fin L _ _ Hs Fa). apply (in_map (fun q => amul K (m q) (f q))). exact I. }
    assert (C : forall q, In q l -> Rabs (val (amul K (m q) (f q)) - val (m q) * val (f q))
                                     <= u * (Rabs (val (m q)) * Rabs (val (f q))) + eta).
    { intros q I. rewrite <- Rabs_mult. exact (v_mul _ _ _ _ _ V _ _ (Fq q I)). }
    (* sum of the errors of the products *)
    assert (E1 : Rabs (rsum (map (fun q => amul K (m q) (f q)) l) - fold_right Rplus 0 (map (fun q => val (m q) * val (f q)) l))
                 <= u * S + INR (length l) * eta).
    { unfold rsum. rewrite map_map.
      replace (_ - _) with (fold_right Rplus 0 (map (fun q => 1 * val (amul K (m q) (f q)) + -1 * (val (m q) * val (f q))) l))
        by (rewrite fold_sum_lin; ring).
      eapply Rle_trans; [apply fold_sum_abs|].
      replace (u * S + INR (length l) * eta)
        with (fold_right Rplus 0 (map (fun q => u * (Rabs (val (m q)) * Rabs (val (f q))) + 1 * eta) l))
        by (rewrite (fold_sum_lin _ _ (fun _ => eta)), fold_sum_const; unfold S; ring).
      apply fold_sum_le. intros q I. specialize (C q I).
      replace (1 * val (amul K (m q) (f q)) + -1 * (val (m q) * val (f q))) with (val (amul K (m q) (f q)) - val (m q) * val (f q)) by ring. lra. }
    assert (E2 : rabs (map (fun q => amul K (m q) (f q)) l) <= (1 + u) * S + INR (length l) * eta).
    { unfold rabs. rewrite map_map.
      replace ((1 + u) * S + INR (length l) * eta)
        with (fold_right Rplus 0 (map (fun q => (1 + u) * (Rabs (val (m q)) * Rabs (val (f q))) + 1 * eta) l))
        by (rewrite (fold_sum_lin _ _ (fun _ => eta)), fold_sum_const; unfold S; ring).
      apply fold_sum_le. intros q I. specialize (C q I).
      pose proof (Rabs_triang (val (amul K (m q) (f q)) - val (m q) * val (f q)) (val (m q) * val (f q))) as T.
      replace (val (amul K (m q) (f q)) - val (m q) * val (f q) + val (m q) * val (f q)) with (val (amul K (m q) (f q))) in T by ring.
      rewrite (Rabs_mult (val (m q))) in T. lra. }
    pose proof (pow_up (length l)) as PU. set (z := (1 + u) ^ length l) in *.
    apply Rmult_le_compat_l with (r := z - 1) in E2; [|lra].
    replace (val a - fold_right Rplus 0 (map (fun q => val (m q) * val (f q)) l))
      with ((val a - rsum (map (fun q => amul K (m q) (f q)) l))
            + (rsum (map (fun q => amul K (m q) (f q)) l) - fold_right Rplus 0 (map (fun q => val (m q) * val (f q)) l))) by ring.
    eapply Rle_trans; [apply Rabs_triang|].
    replace (length l + 1)%nat with (Datatypes.S (length l)) by lia. cbn [pow]. fold z. lra.
  Qed.

  (** The relative error of a sum against a given number. *)
  Lemma load_error : forall l a Fx th, summed K l a -> fin th ->
    alt K (aabs K (adiv K (asub K (aopp K a) Fx) (aopp K a))) th = true ->
    Rabs (- rsum l - val Fx)
      <= ((1 + u) ^ length l * (val th + eta) / (1 - u) ^ 2 + (1 + u) ^ length l - 1) * rabs l.
  Proof.
    intros l a Fx th Hs Ft H. pose proof U0 as HU. pose proof E0 as HE.
    pose proof (l_abs_small K fin L _ _ H) as Fr. set (t := aopp K a) in *.
    assert (Fa : fin t).
    { destruct (l_fin_dec K fin L t) as [Q|Q]; [exact Q|exfalso].
      apply (l_fin_nan K fin L _ Fr). apply (l_inf_ratio K fin L); [|exact Q].
      intro Z. apply Q. exact (proj1 (l_sub_fin K fin L _ _ Z)). }
    destruct (v_div_fin _ _ _ _ _ V _ _ Fa Fr) as [Fd NZ].
    apply (v_lt _ _ _ _ _ V _ _ (v_abs_fin _ _ _ _ _ V _ Fr) Ft) in H. rewrite (v_abs _ _ _ _ _ V) in H.
    pose proof (v_div _ _ _ _ _ V _ _ Fa Fr) as C1. unfold close in C1.
    destruct (close_rel u _ _ (proj1 HU) (v_sub _ _ _ _ _ V _ _ Fd)) as (d & D & E).
    assert (Fa' : fin a) by (apply (l_opp_fin K fin L); exact Fa).
    pose proof (summed_error l a Hs Fa') as SE.
    assert (Et : val t = - val a) by apply (v_opp _ _ _ _ _ V).
    set (q := val (asub K t Fx) / val t) in *. set (r := val (adiv K (asub K t Fx) t)) in *.
    assert (Q1 : Rabs q * (1 - u) <= val th + eta).
    { pose proof (Rabs_triang (r) (q - r)) as T. replace (r + (q - r)) with q in T by ring.
      rewrite (Rabs_minus_sym q r) in T. lra. }
    assert (T0 : 0 < Rabs (val t)) by (apply Rabs_pos_lt; exact NZ).
    assert (Q2 : Rabs (val (asub K t Fx)) * (1 - u) <= (val th + eta) * Rabs (val t)).
    { replace (val (asub K t Fx)) with (q * val t) by (unfold q; field; exact NZ). rewrite Rabs_mult.
      apply Rmult_le_compat_r with (r := Rabs (val t)) in Q1; lra. }
    assert (Q3 : Rabs (val t - val Fx) * (1 - u) <= Rabs (val (asub K t Fx))).
    { rewrite E, Rabs_mult, (Rabs_pos_eq (1 + d)) by lra. apply Rmult_le_compat_l; [apply Rabs_pos|lra]. }
    set (z := (1 + u) ^ length l) in *. pose proof (pow_up (length l)) as Z1. fold z in Z1.
    pose proof (rabs_pos l) as A0. pose proof (rsum_abs l) as A1.
    assert (T1 : Rabs (val t) <= z * rabs l).
    { rewrite Et, Rabs_Ropp. pose proof (Rabs_triang (val a - rsum l) (rsum l)) as T.
      replace (val a - rsum l + rsum l) with (val a) in T by ring. lra. }
    assert (TH : 0 <= val th + eta).
    { pose proof (Rabs_pos q). assert (0 <= Rabs q * (1 - u)) by (apply Rmult_le_pos; lra). lra. }
    assert (Q4 : Rabs (val t - val Fx) <= z * (val th + eta) / (1 - u) ^ 2 * rabs l).
    { assert (U2 : 0 < (1 - u) ^ 2) by (apply pow_lt; lra).
      apply Rmult_le_reg_r with ((1 - u) ^ 2); [exact U2|].
      replace (z * (val th + eta) / (1 - u) ^ 2 * rabs l * (1 - u) ^ 2) with ((val th + eta) * (z * rabs l)) by (field; lra).
      apply Rle_trans with ((val th + eta) * Rabs (val t)); [|apply Rmult_le_compat_l; assumption].
      apply Rle_trans with (2 := Q2). replace (Rabs (val t - val Fx) * (1 - u) ^ 2) with (Rabs (val t - val Fx) * (1 - u) * (1 - u)) by ring.
      apply Rmult_le_compat_r; lra. }
    replace (- rsum l - val Fx) with ((val a - rsum l) + (val t - val Fx)) by (rewrite Et; ring).
    eapply Rle_trans; [apply Rabs_triang|]. lra.
  Qed.

End Round.

(** Approximate and exact solutions of a contact problem. *)
Lemma accuracy : forall (P : Type) (pts : list P) (surf : P -> Prop) (M : P -> P -> R) (h x jv ps lo up rho : P -> R) (off : R),
  (forall p, In p pts -> surf p \/ ~ surf p) ->
  let S f := fold_right Rplus 0 (map f pts) in
  let resp f p := S (fun q => M p q * f q) in
  (forall p, In p pts -> surf p -> 0 <= jv p /\ - lo p <= x p - h p - off /\ (jv p <> 0 -> x p - h p - off <= up p)
     /\ Rabs (x p - resp jv p) <= rho p) ->
  (forall p, In p pts -> ~ surf p -> jv p = 0) ->
  (forall p, In p pts -> (surf p -> 0 <= ps p /\ 0 <= resp ps p - h p - off /\ ps p * (resp ps p - h p - off) = 0)
     /\ (~ surf p -> ps p = 0)) ->
  S (fun p => (jv p - ps p) * resp (fun q => jv q - ps q) p)
    <= S (fun p => jv p * up p + ps p * lo p + (jv p + ps p) * rho p).
Proof.
  intros P pts surf M h x jv ps lo up rho off DEC S resp H1 H2 H3. apply fold_sum_le. intros p I.
  assert (RL : resp (fun q => jv q - ps q) p = resp jv p - resp ps p).
  { unfold resp, S. replace (_ - _) with (fold_right Rplus 0 (map (fun q => 1 * (M p q * jv q) + -1 * (M p q * ps q)) pts))
      by (rewrite fold_sum_lin; ring). apply fold_sum_ext. intros q _. ring. }
  rewrite RL. destruct (H3 p I) as [P1 P2]. destruct (DEC p I) as [D|D].
  - destruct (H1 p I D) as (J0 & LO & UP & RH). destruct (P1 D) as (S0 & G0 & GZ).
    set (gs := resp ps p - h p - off) in *. set (gx := x p - h p - off) in *.
    apply abs_le in RH. set (r := x p - resp jv p) in *.
    replace (resp jv p - resp ps p) with (gx - gs - r) by (unfold gx, gs, r; ring).
    assert (T1 : jv p * gx <= jv p * up p).
    { destruct (Req_dec (jv p) 0) as [->|N]; [lra|]. apply Rmult_le_compat_l; [exact J0|exact (UP N)]. }
    assert (T2 : 0 <= jv p * gs) by (apply Rmult_le_pos; assumption).
    assert (T3 : ps p * - lo p <= ps p * gx) by (apply Rmult_le_compat_l; assumption).
    assert (T4 : jv p * - r <= jv p * rho p) by (apply Rmult_le_compat_l; [exact J0|lra]).
    assert (T5 : ps p * r <= ps p * rho p) by (apply Rmult_le_compat_l; [exact S0|lra]). lra.
  - rewrite (H2 p I D), (P2 D). lra.
Qed.
