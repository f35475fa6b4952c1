(** * Pipeline: parts of runs and the maps of a step *)
From Coq Require Import Reals ZArith Lia Lra List Arith Bool String Permutation FunctionalExtensionality.
From Verif Require Import Py FFT_Base HalfSpace_Model Free_Model Systems_Model Systems_Proofs
  Factory_Model Pipeline_Model Pipeline_Spec Pipeline_Proofs Pipeline_Sort Pipeline_Results Pipeline_More.
From Coq Require Import List.
Import ListNotations.
Local Open Scope R_scope.

Lemma nth_error_ext_map : forall A B (f : A -> B) (ss : list A) (l : list B), List.length ss = List.length l ->
  (forall i s, nth_error ss i = Some s -> nth_error l i = Some (f s)) -> map f ss = l.
Proof.
  induction ss as [|s ss IH]; intros [|x l] L H; try discriminate; [reflexivity|]. cbn.
  pose proof (H 0%nat s eq_refl) as E. injection E as ->. f_equal. apply IH; [cbn in L; lia|].
  intros i s' N. apply (H (S i) s' N).
Qed.

Definition finish (x : state * surface * list output * res (option history)) : list output * res arrays :=
  match x with
  | (_, calls, Exc e) => (calls, Exc e)
  | (_, calls, Ret None) => (calls, Exc TypeErr)
  | (_, calls, Ret (Some h)) => (calls, Ret (h_press h, h_areas h, h_disps h, h_gaps h, h_conv h))
  end.

Section Parts.
  Variable solver : substrate -> surface -> option R -> solver_args -> res oresult.
  Variable sb : substrate.
  Variable sizes : list R.
  Variable plastic resets : bool.
  Variable pentol : R.
  Variable maxiter : nat.
  Variable callback : list output -> output -> res unit.
  Notation run := (run solver sb sizes plastic resets pentol maxiter callback).

  Lemma finish_join : plastic = false -> quiet callback -> forall cs1 cs2 sf c1 A1 c2 A2,
    (forall c, In c (cs1 ++ cs2) -> c <> Automatic) ->
    finish (run cs1 None [] (fresh, sf)) = (c1, Ret A1) -> finish (run cs2 None [] (fresh, sf)) = (c2, Ret A2) ->
    finish (run (cs1 ++ cs2) None [] (fresh, sf)) = (c1 ++ c2, Ret (join A1 A2)).
  Proof.
    intros P Q cs1 cs2 sf c1 A1 c2 A2 NA H1 H2.
    destruct (run_pure solver sb sizes plastic resets pentol maxiter callback P Q cs1 None [] fresh sf) as [y1 E1];
      [intros c I; apply NA, in_or_app; left; exact I|].
    destruct (run_pure solver sb sizes plastic resets pentol maxiter callback P Q cs2 None [] fresh sf) as [y2 E2];
      [intros c I; apply NA, in_or_app; right; exact I|].
    destruct (run_pure solver sb sizes plastic resets pentol maxiter callback P Q (cs1 ++ cs2) None [] fresh sf NA) as [y3 E3].
    rewrite E1 in H1. rewrite E2 in H2. rewrite E3. clear E1 E2 E3.
    destruct (pure solver sb sizes plastic resets pentol maxiter cs1 sf) as [os1 [h1|e]] eqn:U1; [|discriminate].
    rewrite (pure_app _ _ _ _ _ _ _ cs1 cs2 sf os1 h1 U1).
    destruct (pure solver sb sizes plastic resets pentol maxiter cs2 sf) as [os2 [h2|e]]; [|discriminate].
    cbn [fst snd app finish] in *. destruct h1 as [h1|]; [|discriminate]. destruct h2 as [h2|]; [|discriminate].
    cbn [happo happ finish] in *. injection H1 as <- <-. injection H2 as <- <-. reflexivity.
  Qed.

  Lemma firstn_app_exact : forall A n (l l' : list A), List.length l = n -> firstn n (l ++ l') = l.
  Proof. intros A n l l' <-. rewrite firstn_app, Nat.sub_diag, firstn_all. cbn. apply app_nil_r. Qed.

  Lemma finish_prefix : forall cs1 cs2 sf c A, cs1 <> [] ->
    finish (run (cs1 ++ cs2) None [] (fresh, sf)) = (c, Ret A) ->
    finish (run cs1 None [] (fresh, sf)) = (firstn (List.length cs1) c, Ret (take (List.length cs1) A)).
  Proof.
    intros cs1 cs2 sf c A NE H. rewrite run_app in H.
    destruct (run cs1 None [] (fresh, sf)) as [[w1 c1] [h1|e]] eqn:R1; [|discriminate].
    destruct (run_spec _ _ _ _ _ _ _ _ _ _ _ _ _ _ _ R1) as (ss1 & _ & C1 & F1). destruct (F1 _ eq_refl) as [L1 E1].
    cbn [app] in C1. destruct (run cs2 h1 c1 w1) as [[w2 c2] [h2|e]] eqn:R2; [|discriminate].
    destruct (run_spec _ _ _ _ _ _ _ _ _ _ _ _ _ _ _ R2) as (ss2 & _ & C2 & F2). destruct (F2 _ eq_refl) as [L2 E2].
    destruct h1 as [h1|].
    - rewrite extend_all_some in E2. subst h2. cbn [finish] in *. injection H as <- <-. cbn [h_press h_areas h_disps h_gaps h_conv take].
      symmetry in E1. pose proof (extend_all_none _ _ E1) as E1'.
      rewrite C2, C1. rewrite firstn_app_exact by (rewrite map_length; exact L1).
      rewrite E1' at 6 7 8 9 10. rewrite E1'. cbn [h_press h_areas h_disps h_gaps h_conv].
      rewrite !firstn_app_exact by (rewrite map_length; exact L1). reflexivity.
    - exfalso. destruct ss1 as [|s ss1]; [destruct cs1; [congruence|discriminate]|].
      unfold extend_all in E1. cbn [fold_left] in E1. fold (extend_all (Some (extend None s)) ss1) in E1.
      rewrite extend_all_some in E1. discriminate.
  Qed.
End Parts.

Lemma cm_finish : forall solver rms callback a, mode_ok a = true ->
  contact_mechanics solver rms callback a =
  match make_half_space (substrate_name a) (sf_grid (cm_topography a)) (cm_sizes a) with
  | Exc e => ([], Exc e)
  | Ret sb => finish (run solver sb (cm_sizes a) (is_plastic_run a) (orb (is_plastic_run a) (cm_is_plastic a))
              (tolerance rms a) (cm_maxiter a) callback (commands a) None [] (fresh, cm_surface a))
  end.
Proof. intros. rewrite cm_run by assumption. reflexivity. Qed.

(** ** The maps *)
Lemma asum_scale : forall f c a, (forall x, f x = x * c) -> asum (amap f a) = asum a * c.
Proof.
  intros f c a H. unfold asum, amap. cbn [a_shape]. rewrite <- Rsum_scal_r. apply Rsum_ext. intros k _.
  unfold flat. cbn. apply H.
Qed.

(** Number of points in a map. *)
Definition points_in (z : list nat * zone) : nat :=
  List.length (filter (fun k => snd z (k / nth 1 (fst z) 1)%nat (k mod nth 1 (fst z) 1)%nat) (seq 0 (size (fst z)))).

Lemma Rsum_count : forall n (p : nat -> bool), Rsum n (fun k => if p k then 1 else 0) = INR (List.length (filter p (seq 0 n))).
Proof.
  induction n as [|n IH]; intros p; [reflexivity|]. rewrite seq_S, filter_app, app_length, plus_INR, <- IH. cbn.
  destruct (p n); cbn; lra.
Qed.
Lemma count_points : forall a, count_positive a = INR (points_in (positive_zone a)).
Proof.
  intros a. unfold count_positive, asum, points_in, positive_zone, amap. cbn [fst snd a_shape].
  rewrite <- Rsum_count. apply Rsum_ext. intros k _. unfold flat. cbn [a_shape a_val]. destruct (Rlt_dec 0 _); reflexivity.
Qed.
Lemma points_le : forall z, (points_in z <= size (fst z))%nat.
Proof.
  intros z. unfold points_in. set (p := fun k => _). rewrite <- (seq_length (size (fst z)) 0) at 2.
  generalize (seq 0 (size (fst z))). induction l as [|x l IH]; cbn; [lia|]. destruct (p x); cbn; lia.
Qed.

Lemma binop_mean : forall n m (u h d : arr), a_shape u = [n; m] -> a_shape h = [n; m] -> (0 < m)%nat ->
  binop Rminus u h = Ret d -> a_shape d = [n; m] /\ (forall k, (k < n * m)%nat -> flat d k = flat u k - flat h k)
  /\ amean d = amean u - amean h.
Proof.
  intros n m u h d U H M B. unfold binop in B. rewrite U, H, !bext_refl in B. injection B as <-.
  assert (F : forall k, (k < n * m)%nat -> flat (mkArr [n; m] (fun x y => a_val u (bidx n x) (bidx m y) - a_val h (bidx n x) (bidx m y))) k
     = flat u k - flat h k).
  { intros k K. unfold flat. cbn [a_shape a_val nth]. rewrite U, H. cbn [nth].
    rewrite !bidx_lt; [reflexivity|apply Nat.mod_upper_bound; lia|apply Nat.div_lt_upper_bound; nia]. }
  split; [reflexivity|]. split; [exact F|].
  unfold amean, asum. cbn [a_shape]. rewrite U, H. unfold size. cbn [fold_right]. rewrite Nat.mul_1_r.
  rewrite (Rsum_ext (n * m) _ _ F). unfold Rminus at 1. rewrite Rsum_plus.
  rewrite (Rsum_ext (n * m) (fun i => - flat h i) (fun i => (-1) * flat h i)) by (intros; lra). rewrite Rsum_scal. unfold Rdiv. ring.
Qed.
Lemma Rsum_le : forall n f g, (forall k, (k < n)%nat -> f k <= g k) -> Rsum n f <= Rsum n g.
Proof.
  intros n f g H. assert (0 <= Rsum n (fun k => g k + (-1) * f k)) by (apply Rsum_nonneg; intros k K; specialize (H k K); lra).
  rewrite Rsum_plus, Rsum_scal in H0. lra.
Qed.
Lemma amean_shift : forall f c a, (forall x, f x = x - c) -> (0 < size (a_shape a))%nat -> amean (amap f a) = amean a - c.
Proof.
  intros f c a H P. unfold amean, asum, amap. cbn [a_shape].
  rewrite (Rsum_ext _ _ (fun k => flat a k + (- c))) by (intros k _; unfold flat; cbn; rewrite H; lra).
  rewrite Rsum_plus, Rsum_const. assert (0 < INR (size (a_shape a))) by (apply lt_0_INR; exact P). field. lra.
Qed.
Lemma amean_le : forall a b, a_shape a = a_shape b -> (forall k, (k < size (a_shape a))%nat -> flat a k <= flat b k) -> amean a <= amean b.
Proof.
  intros a b S H. unfold amean, asum. rewrite <- S. unfold Rdiv. apply Rmult_le_compat_r.
  - destruct (size (a_shape a)); [cbn; rewrite Rinv_0; lra|]. left. apply Rinv_0_lt_compat, lt_0_INR. lia.
  - apply Rsum_le. exact H.
Qed.
