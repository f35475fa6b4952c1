(** * The Greenwood-Tripp loop computes the damped iteration *)

From Coq Require Import Reals ZArith Lra Lia Psatz FunctionalExtensionality.
From Coquelicot Require Import Coquelicot.
From Verif Require Import Py Hertz_Model GreenwoodTripp_Model GreenwoodTripp_Spec.
From Coq Require Import List.
Import ListNotations.
Local Open Scope R_scope.

(** ** Lists *)
Lemma map2_map : forall A B D E (f : A -> B -> D) (a : E -> A) (b : E -> B) l,
  map2 f (map a l) (map b l) = map (fun i => f (a i) (b i)) l.
Proof. intros. induction l as [|x l IH]; [reflexivity|]. cbn [map map2]. rewrite IH. reflexivity. Qed.
Lemma seq_res_ret : forall A E (g : E -> res A) (f : E -> A) l,
  (forall x, In x l -> g x = Ret (f x)) -> seq_res (map g l) = Ret (map f l).
Proof.
  intros A E g f l. induction l as [|x l IH]; intros H; [reflexivity|].
  cbn [map seq_res]. rewrite (H x (or_introl eq_refl)). rewrite IH by (intros y Hy; apply H; right; exact Hy). reflexivity.
Qed.
Lemma seq_res_exc : forall A E (g : E -> res A) e l,
  (exists x, In x l /\ g x = Exc e) -> (forall x, In x l -> g x = Exc e \/ exists a, g x = Ret a) ->
  seq_res (map g l) = Exc e.
Proof.
  intros A E g e l. induction l as [|x l IH]; intros [y [Hy Ey]] H; [destruct Hy|].
  cbn [map seq_res]. destruct (H x (or_introl eq_refl)) as [X|[a X]]; rewrite X; [reflexivity|]. cbn [bind].
  rewrite IH; [reflexivity| |intros z Hz; apply H; right; exact Hz].
  destruct Hy as [Hy|Hy]; [subst y; rewrite X in Ey; discriminate|exists y; split; assumption].
Qed.
Lemma fold_max_le : forall l t, fold_right Rmax 0 l <= t <-> (0 <= t /\ forall x, In x l -> x <= t).
Proof.
  induction l as [|x l IH]; intros t; cbn [fold_right].
  - split; [intros H; split; [exact H|intros y []]|intros [H _]; exact H].
  - split.
    + intros H. pose proof (Rmax_l x (fold_right Rmax 0 l)). pose proof (Rmax_r x (fold_right Rmax 0 l)).
      destruct (proj1 (IH t)) as [T L]; [lra|]. split; [exact T|]. intros y [E|E]; [subst y; lra|apply L; exact E].
    + intros [T L]. apply Rmax_lub; [apply L; left; reflexivity|]. apply IH. split; [exact T|].
      intros y Hy. apply L. right. exact Hy.
Qed.

Section Grid.
  Variable rhomax : R.
  Variable n : nat.
  Hypothesis Hn : (2 <= n)%nat.
  Hypothesis Hr : 0 < rhomax.

  Lemma n1_pos : 0 < INR (n - 1).
  Proof. apply lt_0_INR. lia. Qed.
  Lemma spacing_pos : 0 < spacing rhomax n.
  Proof. unfold spacing. apply Rdiv_lt_0_compat; [exact Hr|exact n1_pos]. Qed.
  Lemma rho_arr : rho rhomax n = arr n (radius rhomax n).
  Proof.
    unfold rho, linspace, arr. apply map_ext. intros j. unfold radius, spacing.
    rewrite Rminus_0_r, Rplus_0_l. reflexivity.
  Qed.
  Lemma radius_last : radius rhomax n (n - 1) = rhomax.
  Proof. unfold radius, spacing. pose proof n1_pos. field. lra. Qed.
  Lemma radius_pos : forall i, (0 < i)%nat -> 0 < radius rhomax n i.
  Proof. intros i Hi. unfold radius. apply Rmult_lt_0_compat; [apply lt_0_INR; exact Hi|exact spacing_pos]. Qed.
  Lemma arr_nth : forall q i v, (i < n)%nat -> nth i (arr n q) v = q i.
  Proof.
    intros q i v Hi. unfold arr. rewrite (nth_indep _ v (q 0%nat)) by (rewrite map_length, seq_length; exact Hi).
    rewrite map_nth. rewrite seq_nth by exact Hi. reflexivity.
  Qed.
  Lemma arr_length : forall q, length (arr n q) = n.
  Proof. intros q. unfold arr. rewrite map_length, seq_length. reflexivity. Qed.

  (** The linear interpolation is [pl]. *)
  Let h := spacing rhomax n.
  Lemma pl_seg : forall q j x, INR j * h <= x <= INR (S j) * h ->
    pl rhomax n q x = q j + (q (S j) - q j) * (x / h - INR j).
  Proof.
    intros q j x Hx. pose proof spacing_pos as Hh. fold h in Hh. unfold pl. fold h. cbv zeta.
    assert (X1 : INR j <= x / h) by (apply (Rmult_le_reg_r h); [exact Hh|]; unfold Rdiv; rewrite Rmult_assoc, Rinv_l by lra; lra).
    assert (X2 : x / h <= INR (S j)) by (apply (Rmult_le_reg_r h); [exact Hh|]; unfold Rdiv; rewrite Rmult_assoc, Rinv_l by lra; lra).
    destruct (base_Int_part (x / h)) as [B1 B2].
    set (u := x / h) in *. rewrite S_INR in X2. rewrite INR_IZR_INZ in X1, X2.
    set (z := Int_part u) in *.
    assert (Z1 : (Z.of_nat j <= z)%Z).
    { apply Z.lt_succ_r. apply lt_IZR. rewrite succ_IZR. lra. }
    assert (Z2 : (z <= Z.of_nat j + 1)%Z) by (apply le_IZR; rewrite plus_IZR; lra).
    destruct (Z.eq_dec z (Z.of_nat j)) as [E|E].
    - rewrite E, Nat2Z.id. rewrite INR_IZR_INZ. reflexivity.
    - assert (Ez : z = (Z.of_nat j + 1)%Z) by lia.
      assert (EN : Z.to_nat z = S j) by lia. rewrite EN.
      assert (U : u = INR (S j)). { rewrite Ez, plus_IZR in B1. rewrite S_INR, INR_IZR_INZ. lra. }
      rewrite U. rewrite (S_INR j). ring.
  Qed.
  Lemma interp_seg_pl : forall q m a x, (2 <= m)%nat -> INR a * h <= x <= INR (a + m - 1) * h ->
    interp_seg (map (radius rhomax n) (seq a m)) (map q (seq a m)) x = pl rhomax n q x.
  Proof.
    intros q m. pose proof spacing_pos as Hh. fold h in Hh.
    assert (SEG : forall a x, INR a * h <= x <= INR (S a) * h ->
      (q (S a) - q a) / (radius rhomax n (S a) - radius rhomax n a) * (x - radius rhomax n a) + q a = pl rhomax n q x).
    { intros a x Hx. rewrite (pl_seg q a x Hx). unfold radius. fold h. rewrite S_INR. field. lra. }
    induction m as [|m IH]; intros a x Hm Hx; [lia|]. destruct m as [|m]; [lia|].
    cbn [seq map interp_seg]. destruct m as [|m].
    - cbn [seq map]. apply SEG. replace (a + 2 - 1)%nat with (S a) in Hx by lia. exact Hx.
    - change (match map (radius rhomax n) (seq (S (S a)) (S m)) with
              | [] => (q (S a) - q a) / (radius rhomax n (S a) - radius rhomax n a) * (x - radius rhomax n a) + q a
              | _ :: _ => if Rle_dec x (radius rhomax n (S a))
                          then (q (S a) - q a) / (radius rhomax n (S a) - radius rhomax n a) * (x - radius rhomax n a) + q a
                          else interp_seg (map (radius rhomax n) (seq (S a) (S (S m)))) (map q (seq (S a) (S (S m)))) x
              end = pl rhomax n q x).
      cbn [seq map]. destruct (Rle_dec x (radius rhomax n (S a))) as [L|L].
      + apply SEG. split; [apply Hx|exact L].
      + change (interp_seg (map (radius rhomax n) (seq (S a) (S (S m)))) (map q (seq (S a) (S (S m)))) x = pl rhomax n q x).
        apply IH; [lia|]. replace (S a + S (S m) - 1)%nat with (a + S (S (S m)) - 1)%nat by lia.
        split; [unfold radius in L; fold h in L; lra|apply Hx].
  Qed.
  Lemma interp1d_pl : forall q x, 0 <= x <= rhomax -> interp1d (rho rhomax n) (arr n q) x = Ret (pl rhomax n q x).
  Proof.
    intros q x Hx. rewrite rho_arr. unfold interp1d. rewrite arr_length, !arr_nth by lia. rewrite radius_last.
    destruct (Rlt_dec x (radius rhomax n 0)) as [L|L]; [unfold radius in L; simpl in L; lra|].
    destruct (Rgt_dec x rhomax) as [G|G]; [lra|]. f_equal. unfold arr. apply interp_seg_pl; [exact Hn|].
    pose proof radius_last as RL. unfold radius in RL. fold h in RL.
    replace (0 + n - 1)%nat with (n - 1)%nat by lia. rewrite RL. simpl. lra.
  Qed.
  Lemma interp1d_out : forall q x, x < 0 \/ rhomax < x -> interp1d (rho rhomax n) (arr n q) x = Exc ValueErr.
  Proof.
    intros q x Hx. rewrite rho_arr. unfold interp1d. rewrite arr_length, !arr_nth by lia. rewrite radius_last.
    destruct (Rlt_dec x (radius rhomax n 0)) as [L|L]; [reflexivity|]. unfold radius in L; simpl in L.
    destruct (Rgt_dec x rhomax) as [G|G]; [reflexivity|]. lra.
  Qed.
  Lemma interp1d_cases : forall q x, interp1d (rho rhomax n) (arr n q) x = Exc ValueErr \/
    exists a, interp1d (rho rhomax n) (arr n q) x = Ret a.
  Proof.
    intros q x. unfold interp1d. destruct (Rlt_dec _ _); [left; reflexivity|]. destruct (Rgt_dec _ _); [left; reflexivity|].
    right. eexists. reflexivity.
  Qed.
End Grid.

Section Loop.
  Variable quad : (R -> R) -> R -> R.
  Variable simpson : list R -> list R -> R.
  Variables d mu rhomax eps tol mix : R.
  Variable n : nat.
  Hypothesis Hn : (2 <= n)%nat.
  Hypothesis Hr : 0 < rhomax.

  Let F := Fn quad.
  Let rad := radius rhomax n.
  Let P := iter_p F s_fun simpson d mu rhomax eps mix n.
  Let W := iter_w F s_fun simpson d mu rhomax eps mix n.
  Let dsp := displacement s_fun simpson rhomax eps n.
  Let A := arr n.

  Lemma P_S : forall k i, P (S k) i = mix * asperity F d mu rhomax n (W k) i + (1 - mix) * P k i.
  Proof.
    intros k i. unfold P, W, iter_p, iter_w. cbn [iterate]. destruct (iterate _ _ _ _ _ _ _ _ _ k) as [p w]. reflexivity.
  Qed.
  Lemma W_S : forall k, W (S k) = dsp (P (S k)).
  Proof.
    intros k. unfold dsp, P, W, iter_p, iter_w. cbn [iterate]. destruct (iterate _ _ _ _ _ _ _ _ _ k) as [p w]. reflexivity.
  Qed.

  Lemma pressure_arr : forall w w0,
    pressure_of quad d mu rhomax n (A (fun i => w i + w0)) w0 = A (asperity F d mu rhomax n w).
  Proof.
    intros w w0. unfold pressure_of. rewrite rho_arr. unfold A, arr. rewrite map2_map. apply map_ext. intros i.
    unfold asperity, F. do 2 f_equal. ring.
  Qed.
  Lemma linspace_knot : forall i, linspace 0 ((rhomax - eps) / rad i) n = A (knot rhomax eps n i).
  Proof.
    intros i. unfold linspace, A, arr. apply map_ext. intros j. unfold knot. rewrite Rplus_0_l, Rminus_0_r. reflexivity.
  Qed.
  Lemma knot_pos : forall i j, (0 < i)%nat -> rad i * knot rhomax eps n i j = INR j * ((rhomax - eps) / INR (n - 1)).
  Proof.
    intros i j Hi. unfold knot. pose proof (radius_pos rhomax n Hn Hr i Hi) as Pi. pose proof (n1_pos n Hn) as Q.
    fold rad in Pi. fold rad. field. split; lra.
  Qed.

  Section InRange.
    Hypothesis Heps : 0 <= eps <= rhomax.

    Lemma disp_at_ok : forall q i, (i < n)%nat ->
      disp_at simpson rhomax eps n (A q) (simpson (A q) (A rad)) i (rad i)
      = Ret (dsp q i + simpson (A q) (A rad)).
    Proof.
      intros q i Hi. unfold disp_at. destruct i as [|i].
      - cbn [Nat.eqb]. unfold dsp. cbn [displacement]. rewrite Rplus_0_l. reflexivity.
      - cbn [Nat.eqb]. cbv zeta. rewrite linspace_knot. unfold A at 2. unfold arr. rewrite map_map.
        rewrite (seq_res_ret _ _ _ (fun j => pl rhomax n q (rad (S i) * knot rhomax eps n (S i) j))).
        + cbn [bind]. f_equal. unfold dsp. cbn [displacement]. rewrite map_map. unfold A, arr. fold rad. rewrite map_map. ring.
        + intros j Hj. apply in_seq in Hj. apply (interp1d_pl rhomax n Hn Hr).
          rewrite knot_pos by lia. pose proof (n1_pos n Hn) as Q.
          assert (J : 0 <= INR j <= INR (n - 1)) by (split; [apply pos_INR|apply le_INR; lia]).
          assert (T : 0 <= (rhomax - eps) / INR (n - 1)) by (apply Rdiv_le_0_compat; lra).
          split; [apply Rmult_le_pos; lra|].
          apply Rle_trans with (INR (n - 1) * ((rhomax - eps) / INR (n - 1))); [apply Rmult_le_compat_r; lra|].
          replace (INR (n - 1) * ((rhomax - eps) / INR (n - 1))) with (rhomax - eps) by (field; lra). lra.
    Qed.
    Lemma displ_ok : forall q, displ simpson rhomax eps n (A q)
      = Ret (A (fun i => dsp q i + simpson (A q) (A rad)), simpson (A q) (A rad)).
    Proof.
      intros q. unfold displ. rewrite rho_arr. fold rad. fold A. cbv zeta.
      rewrite (seq_res_ret _ _ _ (fun i => dsp q i + simpson (A q) (A rad))); [reflexivity|].
      intros i Hi. apply in_seq in Hi. unfold A at 4. rewrite arr_nth by lia. apply disp_at_ok. lia.
    Qed.

    (** The state after [k] passes. *)
    Definition state_at (k : nat) : gt_state :=
      match k with
      | O => mkGT (A (P 0)) (A (fun _ => 1)) (A (fun i => W 0 i + 0)) 0
      | S m => mkGT (A (P k)) (A (P m)) (A (fun i => W k i + simpson (A (P k)) (A rad))) (simpson (A (P k)) (A rad))
      end.
    Lemma gt_init_at : gt_init rhomax n = state_at 0.
    Proof.
      unfold gt_init, state_at. rewrite rho_arr. unfold A, arr. rewrite !map_map. f_equal.
      apply map_ext. intros i. unfold W, iter_w. cbn. ring.
    Qed.
    Lemma g_of_state : forall k, exists w0, g_p (state_at k) = A (P k) /\ g_w (state_at k) = A (fun i => W k i + w0) /\
      g_w0 (state_at k) = w0.
    Proof. intros [|k]; eexists; repeat split; reflexivity. Qed.
    Lemma gt_step_at : forall k, gt_step quad simpson d mu rhomax eps mix n (state_at k) = Ret (state_at (S k)).
    Proof.
      intros k. destruct (g_of_state k) as [w0 [Ep [Ew E0]]]. unfold gt_step. rewrite Ep, Ew, E0.
      rewrite pressure_arr. cbv zeta.
      assert (EP : map2 (fun a b => mix * a + (1 - mix) * b) (A (asperity F d mu rhomax n (W k))) (A (P k)) = A (P (S k))).
      { unfold A, arr. rewrite map2_map. apply map_ext. intros i. rewrite P_S. reflexivity. }
      rewrite EP. rewrite displ_ok. cbn [bind fst snd]. unfold state_at. rewrite W_S. reflexivity.
    Qed.
    Let Settled := settled F s_fun simpson d mu rhomax eps tol mix n.
    Lemma diff_settled : forall k, max_abs_diff (g_p (state_at k)) (g_pold (state_at k)) <= tol <-> Settled k.
    Proof.
      intros k. unfold max_abs_diff. destruct k as [|k]; unfold state_at; cbn [g_p g_pold].
      - unfold A, arr. rewrite map2_map. unfold Settled. cbn [settled]. rewrite fold_max_le. split.
        + intros [_ H]. specialize (H 1). apply H. apply in_map_iff. exists 0%nat. split; [|apply in_seq; lia].
          unfold P, iter_p. cbn. unfold Rabs. destruct (Rcase_abs _); lra.
        + intros H. split; [lra|]. intros x Hx. apply in_map_iff in Hx. destruct Hx as [i [E _]]. subst x.
          unfold P, iter_p. cbn. unfold Rabs. destruct (Rcase_abs _); lra.
      - unfold A, arr. rewrite map2_map. unfold Settled. cbn [settled]. fold P. rewrite fold_max_le. split.
        + intros [_ H] i Hi. apply H. apply in_map_iff. exists i. split; [reflexivity|apply in_seq; lia].
        + intros H. split.
          * apply Rle_trans with (Rabs (P (S k) 0 - P k 0)); [apply Rabs_pos|apply H; lia].
          * intros x Hx. apply in_map_iff in Hx. destruct Hx as [i [E Hi]]. subst x. apply H. apply in_seq in Hi. lia.
    Qed.
    Lemma gt_loop_at : forall left k,
      (exists j, (j <= left)%nat /\ Settled (k + j) /\ (forall i, (i < j)%nat -> ~ Settled (k + i)) /\
        gt_loop quad simpson d mu rhomax eps tol mix n left (state_at k) = Ret (state_at (k + j))) \/
      ((forall i, (i <= left)%nat -> ~ Settled (k + i)) /\
        gt_loop quad simpson d mu rhomax eps tol mix n left (state_at k) = Exc RuntimeErr).
    Proof.
      induction left as [|left IH]; intros k; cbn [gt_loop]; pose proof (diff_settled k) as DS;
        destruct (Rgt_dec (max_abs_diff (g_p (state_at k)) (g_pold (state_at k))) tol) as [G|G].
      - right. split; [|reflexivity]. intros i Hi. replace (k + i)%nat with k by lia. intros C. apply DS in C. lra.
      - left. exists 0%nat. replace (k + 0)%nat with k by lia. split; [lia|]. split; [apply DS; lra|]. split; [intros; lia|reflexivity].
      - rewrite gt_step_at. cbn [bind]. assert (NS : ~ Settled k) by (intros C; apply DS in C; lra).
        destruct (IH (S k)) as [[j [J1 [J2 [J3 J4]]]]|[J1 J2]].
        + left. exists (S j). replace (k + S j)%nat with (S k + j)%nat by lia. split; [lia|]. split; [exact J2|]. split; [|exact J4].
          intros i Hi. destruct i as [|i]; [replace (k + 0)%nat with k by lia; exact NS|].
          replace (k + S i)%nat with (S k + i)%nat by lia. apply J3. lia.
        + right. split; [|exact J2]. intros i Hi. destruct i as [|i]; [replace (k + 0)%nat with k by lia; exact NS|].
          replace (k + S i)%nat with (S k + i)%nat by lia. apply J1. lia.
      - left. exists 0%nat. replace (k + 0)%nat with k by lia. split; [lia|]. split; [apply DS; lra|]. split; [intros; lia|reflexivity].
    Qed.
    Lemma gt_result : forall maxiter,
      (exists K, (K <= Z.to_nat (maxiter + 1))%nat /\ Settled K /\ (forall i, (i < K)%nat -> ~ Settled i) /\
        greenwood_tripp quad simpson d mu rhomax eps tol mix n maxiter
        = Ret (A (W K), A (asperity F d mu rhomax n (W K)), A rad)) \/
      ((forall i, (i <= Z.to_nat (maxiter + 1))%nat -> ~ Settled i) /\
        greenwood_tripp quad simpson d mu rhomax eps tol mix n maxiter = Exc RuntimeErr).
    Proof.
      intros maxiter. unfold greenwood_tripp. rewrite gt_init_at.
      destruct (gt_loop_at (Z.to_nat (maxiter + 1)) 0) as [[K [K1 [K2 [K3 K4]]]]|[K1 K2]].
      - left. exists K. cbn [Nat.add] in K2, K3, K4. split; [exact K1|]. split; [exact K2|]. split; [exact K3|].
        rewrite K4. cbn [bind]. destruct (g_of_state K) as [w0 [Ep [Ew E0]]]. rewrite Ew, E0, pressure_arr, rho_arr.
        f_equal. f_equal. f_equal. unfold A, arr. rewrite map_map. apply map_ext. intros i. ring.
      - right. split; [exact K1|]. rewrite K2. reflexivity.
    Qed.
  End InRange.

  (** Outside of the range of [eps] the first pass fails. *)
  Lemma displ_bad : forall q, eps < 0 \/ rhomax < eps -> displ simpson rhomax eps n (A q) = Exc ValueErr.
  Proof.
    intros q Heps. unfold displ. rewrite rho_arr. fold rad. fold A. cbv zeta.
    pose proof (n1_pos n Hn) as Q.
    assert (NR : forall i, (i < n)%nat -> nth i (A rad) 0 = rad i) by (intros i Hi; apply arr_nth; exact Hi).
    assert (CS : forall i, (i < n)%nat -> disp_at simpson rhomax eps n (A q) (simpson (A q) (A rad)) i (nth i (A rad) 0) = Exc ValueErr \/
      exists a, disp_at simpson rhomax eps n (A q) (simpson (A q) (A rad)) i (nth i (A rad) 0) = Ret a).
    { intros i Hi. rewrite NR by lia. unfold disp_at. destruct i as [|i]; cbn [Nat.eqb]; [right; eexists; reflexivity|].
      left. cbv zeta. rewrite linspace_knot. unfold A at 2. unfold arr. rewrite map_map.
      rewrite (seq_res_exc _ _ _ ValueErr); [reflexivity| |intros j _; apply interp1d_cases].
      exists (n - 1)%nat. split; [apply in_seq; lia|]. apply (interp1d_out rhomax n Hn). rewrite knot_pos by lia.
      replace (INR (n - 1) * ((rhomax - eps) / INR (n - 1))) with (rhomax - eps) by (field; lra). lra. }
    rewrite (seq_res_exc _ _ _ ValueErr); [reflexivity| |intros i Hi; apply in_seq in Hi; apply CS; lia].
    exists 1%nat. split; [apply in_seq; lia|]. rewrite NR by lia. unfold disp_at; cbn [Nat.eqb].
    cbv zeta. rewrite linspace_knot. unfold A at 2. unfold arr. rewrite map_map.
    rewrite (seq_res_exc _ _ _ ValueErr); [reflexivity| |intros j _; apply interp1d_cases].
    exists (n - 1)%nat. split; [apply in_seq; lia|]. apply (interp1d_out rhomax n Hn). rewrite knot_pos by lia.
    replace (INR (n - 1) * ((rhomax - eps) / INR (n - 1))) with (rhomax - eps) by (field; lra). lra.
  Qed.
  Lemma gt_bad_eps : forall maxiter, eps < 0 \/ rhomax < eps -> tol < 1 -> (0 <= maxiter)%Z ->
    greenwood_tripp quad simpson d mu rhomax eps tol mix n maxiter = Exc ValueErr.
  Proof.
    intros maxiter He Ht Hm. unfold greenwood_tripp. rewrite gt_init_at.
    destruct (Z.to_nat (maxiter + 1)) as [|left] eqn:E; [lia|]. cbn [gt_loop].
    assert (NS : ~ max_abs_diff (g_p (state_at 0)) (g_pold (state_at 0)) <= tol).
    { rewrite diff_settled. cbn [settled]. lra. }
    destruct (Rgt_dec _ _) as [G|G]; [|lra].
    unfold gt_step. destruct (g_of_state 0) as [w0 [Ep [Ew E0]]]. rewrite Ep, Ew, E0, pressure_arr.
    cbv zeta.
    assert (EP : map2 (fun a b => mix * a + (1 - mix) * b) (A (asperity F d mu rhomax n (W 0))) (A (P 0)) = A (P 1)).
    { unfold A, arr. rewrite map2_map. apply map_ext. intros i. rewrite P_S. reflexivity. }
    rewrite EP. rewrite displ_bad by exact He. reflexivity.
  Qed.
End Loop.
