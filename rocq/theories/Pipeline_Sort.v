(** * Sorting by area and choice of the largest growth *)
From Coq Require Import Reals Lia Lra List Arith Bool Permutation.
From Verif Require Import Pipeline_Model Pipeline_Spec.
From Coq Require Import List.
Import ListNotations.
Local Open Scope R_scope.

Definition has_area (a : R) (p : R * R) : bool := if Req_EM_T (snd p) a then true else false.

Fixpoint ascending (l : list (R * R)) : Prop :=
  match l with
  | [] => True
  | p :: l' => (forall q, In q l' -> snd p <= snd q) /\ ascending l'
  end.
Lemma ascending_nth : forall s, ascending s -> forall i j, (i < j < List.length s)%nat ->
  snd (nth i s (0, 0)) <= snd (nth j s (0, 0)).
Proof.
  induction s as [|p s IH]; intros A i j H; [cbn in H; lia|]. destruct A as [A1 A2]. cbn in H.
  destruct i, j; try lia; cbn [nth].
  - apply A1. apply nth_In. lia.
  - apply IH; [exact A2|lia].
Qed.
Lemma nth_ascending : forall s, (forall i j, (i < j < List.length s)%nat ->
  snd (nth i s (0, 0)) <= snd (nth j s (0, 0))) -> ascending s.
Proof.
  induction s as [|p s IH]; intros H; [exact I|]. split.
  - intros q Q. destruct (In_nth _ _ (0, 0) Q) as (k & K & E). rewrite <- E. apply (H 0%nat (S k)). cbn. lia.
  - apply IH. intros i j L. apply (H (S i) (S j)). cbn. lia.
Qed.

Lemma insert_perm : forall p l, Permutation (p :: l) (insert p l).
Proof.
  induction l as [|q l IH]; [apply Permutation_refl|]. cbn. destruct (Rlt_dec (snd p) (snd q)); [apply Permutation_refl|].
  eapply perm_trans; [apply perm_swap|]. apply perm_skip. exact IH.
Qed.
Lemma insert_ascending : forall p l, ascending l -> ascending (insert p l).
Proof.
  induction l as [|q l IH]; intros A; [split; [intros ? []|exact I]|]. cbn. destruct (Rlt_dec (snd p) (snd q)).
  - split; [|exact A]. intros r' [<-|I]; [lra|]. destruct A as [A _]. specialize (A _ I). lra.
  - destruct A as [A1 A2]. split; [|apply IH; exact A2]. intros r I.
    apply (Permutation_in r (Permutation_sym (insert_perm p l))) in I. destruct I as [<-|I]; [lra|]. apply A1; exact I.
Qed.
Lemma insert_filter : forall p l a, ascending l ->
  filter (has_area a) (insert p l) = filter (has_area a) l ++ filter (has_area a) [p].
Proof.
  intros p l a. induction l as [|q l IH]; intros A; [reflexivity|]. destruct A as [A1 A2]. cbn [insert].
  destruct (Rlt_dec (snd p) (snd q)).
  - change (filter (has_area a) (p :: q :: l)) with (filter (has_area a) ([p] ++ (q :: l))). rewrite filter_app.
    destruct (has_area a p) eqn:E.
    + assert (N : filter (has_area a) (q :: l) = []).
      { unfold has_area in E. destruct (Req_EM_T (snd p) a); [|discriminate].
        assert (G : forall m, (forall r', In r' m -> snd q <= snd r') -> filter (has_area a) m = []).
        { induction m as [|x m IHm]; intros G; [reflexivity|]. cbn. unfold has_area at 1.
          destruct (Req_EM_T (snd x) a); [specialize (G x (or_introl eq_refl)); lra|].
          apply IHm. intros y Y. apply G. right. exact Y. }
        apply G. intros r' [<-|I]; [lra|]. apply A1. exact I. }
      rewrite N, app_nil_r. reflexivity.
    + cbn [filter]. rewrite E, app_nil_r. reflexivity.
  - cbn [filter] in IH |- *. rewrite (IH A2). destruct (has_area a q); reflexivity.
Qed.

Lemma sort_fold : forall l s, ascending s ->
  ascending (fold_left (fun s p => insert p s) l s)
  /\ Permutation (s ++ l) (fold_left (fun s p => insert p s) l s)
  /\ forall a, filter (has_area a) (fold_left (fun s p => insert p s) l s)
             = filter (has_area a) s ++ filter (has_area a) l.
Proof.
  induction l as [|p l IH]; intros s A; cbn [fold_left].
  - rewrite app_nil_r. split; [exact A|]. split; [apply Permutation_refl|]. intros a. cbn. rewrite app_nil_r. reflexivity.
  - destruct (IH (insert p s) (insert_ascending p s A)) as (B & C & D). split; [exact B|]. split.
    + eapply perm_trans; [|exact C]. eapply perm_trans; [apply Permutation_sym, Permutation_middle|].
      apply (Permutation_app_tail l (insert_perm p s)).
    + intros a. rewrite D, insert_filter by exact A. rewrite <- app_assoc. f_equal. rewrite <- filter_app. reflexivity.
Qed.
Lemma sort_spec : forall l, sorted_by_area l (sort_by_area l).
Proof.
  intros l. destruct (sort_fold l [] I) as (A & P & F). split; [exact P|]. split.
  - apply ascending_nth. exact A.
  - intros a. symmetry. exact (F a).
Qed.

(** The stable order is unique. *)
Lemma filter_head_eq : forall p s p' s',
  ascending (p :: s) -> ascending (p' :: s') ->
  (forall a, filter (has_area a) (p :: s) = filter (has_area a) (p' :: s')) -> p = p' /\
  forall a, filter (has_area a) s = filter (has_area a) s'.
Proof.
  assert (Self : forall q, has_area (snd q) q = true).
  { intros q. unfold has_area. destruct (Req_EM_T (snd q) (snd q)); [reflexivity|congruence]. }
  assert (Le : forall p s p' s', ascending (p' :: s') ->
    (forall a, filter (has_area a) (p :: s) = filter (has_area a) (p' :: s')) -> snd p' <= snd p).
  { intros p s p' s' A F. assert (In p (filter (has_area (snd p)) (p :: s))).
    { apply filter_In. split; [left; reflexivity|apply Self]. }
    rewrite F in H. apply filter_In in H. destruct H as [[<-|H] _]; [lra|]. destruct A as [A _]. apply A. exact H. }
  intros p s p' s' A A' F.
  assert (E : snd p = snd p').
  { apply Rle_antisym; [apply (Le p' s' p s A); intros; symmetry; apply F|apply (Le p s p' s' A' F)]. }
  assert (P : p = p').
  { pose proof (F (snd p)) as G. cbn [filter] in G. rewrite Self in G.
    replace (has_area (snd p) p') with true in G by (symmetry; rewrite E; apply Self). injection G as G _. exact G. }
  split; [exact P|]. intros a. specialize (F a). cbn [filter] in F. rewrite <- P in F.
  destruct (has_area a p); [injection F as F|]; exact F.
Qed.
Lemma sorted_unique : forall l s s', sorted_by_area l s -> sorted_by_area l s' -> s = s'.
Proof.
  intros l s s' (P & A & F) (P' & A' & F').
  assert (G : forall a, filter (has_area a) s = filter (has_area a) s').
  { intros a. etransitivity; [symmetry; apply F|apply F']. }
  assert (L : List.length s = List.length s').
  { rewrite <- (Permutation_length P), <- (Permutation_length P'). reflexivity. }
  apply nth_ascending in A. apply nth_ascending in A'. clear P P' F F'.
  revert s' A' G L. induction s as [|p s IH]; intros [|p' s'] A' G L; try discriminate; [reflexivity|].
  destruct (filter_head_eq _ _ _ _ A A' G) as [-> H]. f_equal. injection L as L.
  apply IH; [apply A|apply A'|exact H|exact L].
Qed.

(** ** [np.argmax] *)
Lemma argmax_from_spec : forall l best ibest i (r : list R),
  (ibest < i)%nat -> List.length r = i -> nth ibest r 0 = best ->
  (forall k, (k < i)%nat -> nth k r 0 <= best) -> (forall k, (k < ibest)%nat -> nth k r 0 < best) ->
  let j := argmax_from best ibest i l in let f := r ++ l in
  (j < List.length f)%nat /\ (forall k, (k < List.length f)%nat -> nth k f 0 <= nth j f 0)
  /\ forall k, (k < j)%nat -> nth k f 0 < nth j f 0.
Proof.
  induction l as [|x l IH]; intros best ibest i r L1 L2 B M F; cbn [argmax_from].
  - cbn zeta. rewrite app_nil_r, L2, B. auto.
  - assert (Snoc : forall k, (k < S i)%nat -> nth k (r ++ [x]) 0 = if Nat.eqb k i then x else nth k r 0).
    { intros k K. destruct (Nat.eqb_spec k i) as [->|N].
      - rewrite app_nth2 by lia. replace (i - List.length r)%nat with 0%nat by lia. reflexivity.
      - rewrite app_nth1 by lia. reflexivity. }
    replace (r ++ x :: l) with ((r ++ [x]) ++ l) by (rewrite <- app_assoc; reflexivity).
    destruct (Rlt_dec best x) as [C|C].
    + apply IH.
      * lia.
      * rewrite app_length, L2. cbn. lia.
      * rewrite Snoc, Nat.eqb_refl by lia. reflexivity.
      * intros k K. rewrite Snoc by lia. destruct (Nat.eqb_spec k i); [lra|]. specialize (M k ltac:(lia)). lra.
      * intros k K. rewrite Snoc by lia. destruct (Nat.eqb_spec k i); [lia|]. specialize (M k ltac:(lia)). lra.
    + apply IH.
      * lia.
      * rewrite app_length, L2. cbn. lia.
      * rewrite Snoc by lia. destruct (Nat.eqb_spec ibest i); [lia|exact B].
      * intros k K. rewrite Snoc by lia. destruct (Nat.eqb_spec k i); [lra|]. apply M. lia.
      * intros k K. rewrite Snoc by lia. destruct (Nat.eqb_spec k i); [lia|]. apply F. lia.
Qed.
Lemma argmax_spec : forall l, l <> [] -> let j := argmax l in
  (j < List.length l)%nat /\ (forall k, (k < List.length l)%nat -> nth k l 0 <= nth j l 0)
  /\ forall k, (k < j)%nat -> nth k l 0 < nth j l 0.
Proof.
  intros [|x l] H; [congruence|]. unfold argmax. apply (argmax_from_spec l x 0 1 [x]); try lia; try reflexivity.
  intros k K. replace k with 0%nat by lia. cbn. lra.
Qed.

(** ** Differences of logarithms and growth *)
Lemma differences_length : forall r, List.length (differences r) = List.length r.
Proof. induction r as [|x [|y r] IH]; [reflexivity|reflexivity|]. cbn [differences List.length]. f_equal. exact IH. Qed.
Lemma differences_nth : forall r j, (j < List.length r)%nat ->
  nth j (differences r) 0 = (if Nat.eqb (S j) (List.length r) then 0 else nth (S j) r 0) - nth j r 0.
Proof.
  induction r as [|x r IH]; intros j H; [cbn in H; lia|]. destruct r as [|y r].
  - cbn in H. replace j with 0%nat by lia. cbn. lra.
  - destruct j as [|j]; [reflexivity|].
    change (nth (S j) (differences (x :: y :: r)) 0) with (nth j (differences (y :: r)) 0).
    rewrite (IH j) by (cbn in H |- *; lia). reflexivity.
Qed.
Lemma ln_div : forall x y, 0 < x -> 0 < y -> ln (x / y) = ln x - ln y.
Proof.
  intros x y X Y. unfold Rdiv. rewrite ln_mult by (try assumption; apply Rinv_0_lt_compat; assumption).
  rewrite ln_Rinv by assumption. lra.
Qed.
Lemma log10_growth : forall n s j, (0 < n)%nat -> (forall p, In p s -> 0 <= snd p) -> (j < List.length s)%nat ->
  nth j (differences (map (fun p => log10 (snd p + 1 / INR n)) s)) 0 = log10 (growth n s j) /\ 0 < growth n s j.
Proof.
  intros n s j N P J. set (r := map _ s).
  assert (Lr : List.length r = List.length s) by apply map_length.
  assert (I0 : 0 < / INR n) by (apply Rinv_0_lt_compat, lt_0_INR; exact N).
  assert (A : forall k, (k < List.length s)%nat -> 0 < snd (nth k s (0, 0)) + / INR n).
  { intros k K. specialize (P _ (nth_In s (0, 0) K)). lra. }
  assert (E : forall k, (k < List.length s)%nat -> nth k r 0 = log10 (snd (nth k s (0, 0)) + / INR n)).
  { intros k K. unfold r. rewrite nth_indep with (d' := log10 (snd ((0, 0) : R * R) + 1 / INR n)) by (rewrite map_length; exact K).
    rewrite (map_nth (fun p => log10 (snd p + 1 / INR n))). f_equal. unfold Rdiv. rewrite Rmult_1_l. reflexivity. }
  rewrite differences_nth by lia. rewrite Lr, (E j J). unfold growth. cbn zeta.
  assert (L10 : 0 < ln 10) by (rewrite <- ln_1; apply ln_increasing; lra).
  destruct (Nat.eqb_spec (S j) (List.length s)).
  - split; [|apply Rdiv_lt_0_compat; [lra|apply A; exact J]].
    unfold log10. rewrite ln_div by (try lra; apply A; exact J). rewrite ln_1. field. lra.
  - rewrite E by lia. split; [|apply Rdiv_lt_0_compat; apply A; lia].
    unfold log10. rewrite ln_div by (apply A; lia). field. lra.
Qed.
Lemma log10_lt : forall x y, 0 < x -> x < y -> log10 x < log10 y.
Proof.
  intros x y X H. unfold log10, Rdiv. apply Rmult_lt_compat_r.
  - apply Rinv_0_lt_compat. rewrite <- ln_1. apply ln_increasing; lra.
  - apply ln_increasing; assumption.
Qed.
Lemma log10_le_inv : forall x y, 0 < y -> log10 x <= log10 y -> x <= y.
Proof. intros x y Y H. destruct (Rle_dec x y); [assumption|]. pose proof (log10_lt y x Y ltac:(lra)). lra. Qed.
Lemma log10_lt_inv : forall x y, 0 < x -> 0 < y -> log10 x < log10 y -> x < y.
Proof.
  intros x y X Y H. destruct (Rlt_dec x y); [assumption|]. destruct (Req_dec x y) as [->|N]; [lra|].
  pose proof (log10_lt y x Y ltac:(lra)). lra.
Qed.

Lemma next_chosen : forall top middle bot n h, (0 < n)%nat ->
  (match h with Some h => List.length (h_areas h) = List.length (h_disps h) /\ (forall a, In a (h_areas h) -> 0 <= a) | None => True end) ->
  chosen top middle bot n (match h with Some h => combine (h_disps h) (h_areas h) | None => [] end)
    (next_displacement top middle bot n h).
Proof.
  intros top middle bot n [h|] N H; [|reflexivity]. destruct H as [L P]. unfold next_displacement.
  destruct h as [D g p A c]. cbn [h_disps h_areas] in *.
  destruct D as [|d0 [|d1 D]]; destruct A as [|a0 [|a1 A]]; try discriminate; [reflexivity| |].
  - cbn [combine chosen]. lra.
  - remember (d0 :: d1 :: D) as DD. remember (a0 :: a1 :: A) as AA.
    pose proof (sort_spec (combine DD AA)) as SS. set (s := sort_by_area (combine DD AA)) in *.
    assert (LL : List.length (combine DD AA) = List.length DD) by (rewrite combine_length, L; lia).
    assert (LS : List.length s = List.length DD) by (rewrite <- LL; symmetry; apply Permutation_length, SS).
    assert (PS : forall q, In q s -> 0 <= snd q).
    { intros [q1 q2] Q. apply (Permutation_in _ (Permutation_sym (proj1 SS))) in Q. apply in_combine_r in Q. apply P. exact Q. }
    assert (NE : differences (map (fun p => log10 (snd p + 1 / INR n)) s) <> []).
    { intro Z. apply (f_equal (@List.length R)) in Z. rewrite differences_length, map_length, LS, HeqDD in Z. discriminate. }
    destruct (argmax_spec _ NE) as (J & M & F). set (j := argmax _) in *.
    rewrite differences_length, map_length in J, M.
    assert (G : chosen top middle bot n (combine DD AA)
      (if Nat.eqb (S j) (List.length s) then 2 * fst (nth j s (0, 0)) - bot
       else (fst (nth j s (0, 0)) + fst (nth (S j) s (0, 0))) / 2)).
    { replace (combine DD AA) with ((d0, a0) :: (d1, a1) :: combine D A) in * by (subst; reflexivity).
      cbn [chosen]. exists s, j. split; [exact SS|]. split; [exact J|]. split; [|split; [|reflexivity]].
      - intros k K. apply log10_le_inv; [apply log10_growth; assumption|].
        rewrite <- (proj1 (log10_growth n s k N PS K)), <- (proj1 (log10_growth n s j N PS J)). apply M. exact K.
      - intros k K. assert (K' : (k < List.length s)%nat) by lia.
        apply log10_lt_inv; try (apply log10_growth; assumption).
        rewrite <- (proj1 (log10_growth n s k N PS K')), <- (proj1 (log10_growth n s j N PS J)). apply F. exact K. }
    replace (if Nat.eqb j (List.length DD - 1) then _ else _) with
      (if Nat.eqb (S j) (List.length s) then 2 * fst (nth j s (0, 0)) - bot
       else (fst (nth j s (0, 0)) + fst (nth (S j) s (0, 0))) / 2).
    + exact G.
    + rewrite LS. destruct (Nat.eqb_spec j (List.length DD - 1)) as [E|E]; destruct (Nat.eqb_spec (S j) (List.length DD)) as [E'|E']; try lia.
      * rewrite <- E. lra.
      * rewrite Nat.add_1_r. reflexivity.
Qed.

(** ** Consequences *)
Lemma chosen_unique : forall top middle bot n l x y,
  chosen top middle bot n l x -> chosen top middle bot n l y -> x = y.
Proof.
  intros top middle bot n [|p [|q l]] x y; cbn [chosen]; try congruence.
  intros (s & j & S & J & M & F & E) (s' & j' & S' & J' & M' & F' & E').
  assert (s' = s) by (eapply sorted_unique; eassumption). subst s'.
  assert (j' = j).
  { destruct (Nat.lt_trichotomy j j') as [H|[H|H]]; [|congruence|].
    - specialize (F' _ H). specialize (M _ J'). lra.
    - specialize (F _ H). specialize (M' _ J). lra. }
  subst. reflexivity.
Qed.
Lemma growth_pos_ge : forall n s k, (0 < n)%nat -> (forall p, In p s -> 0 <= snd p) -> ascending s ->
  (S k < List.length s)%nat -> 1 <= growth n s k.
Proof.
  intros n s k N P A K. unfold growth. cbn zeta. destruct (Nat.eqb_spec (S k) (List.length s)); [lia|].
  assert (I0 : 0 < / INR n) by (apply Rinv_0_lt_compat, lt_0_INR; exact N).
  pose proof (P _ (nth_In s (0, 0) (n := k) ltac:(lia))). pose proof (ascending_nth s A k (S k) ltac:(lia)).
  apply (Rmult_le_reg_r (snd (nth k s (0, 0)) + / INR n)); [lra|]. unfold Rdiv. rewrite Rmult_assoc, Rinv_l by lra. lra.
Qed.
Lemma chosen_bisects : forall top middle bot n l x, (0 < n)%nat -> (2 <= List.length l)%nat ->
  (forall p, In p l -> 0 <= snd p) -> (exists p, In p l /\ 1 <= snd p) -> chosen top middle bot n l x ->
  exists p q, In p l /\ In q l /\ x = (fst p + fst q) / 2.
Proof.
  intros top middle bot n [|p0 [|p1 l]] x N L P (pf & I & F1) C; try (cbn in L; lia).
  cbn [chosen] in C. destruct C as (s & j & S & J & M & F & E). destruct S as (Pm & A & _). apply nth_ascending in A.
  assert (PS : forall q, In q s -> 0 <= snd q) by (intros q Q; apply P, (Permutation_in _ (Permutation_sym Pm)); exact Q).
  pose proof (Permutation_length Pm) as LS. cbn [List.length] in LS.
  destruct (Nat.eqb_spec (Datatypes.S j) (List.length s)) as [Z|Z].
  - exfalso. specialize (M 0%nat ltac:(lia)). pose proof (growth_pos_ge n s 0 N PS A ltac:(lia)) as G.
    assert (growth n s j < 1); [|lra]. unfold growth. cbn zeta. rewrite (proj2 (Nat.eqb_eq _ _) Z).
    assert (I0 : 0 < / INR n) by (apply Rinv_0_lt_compat, lt_0_INR; exact N).
    assert (1 <= snd (nth j s (0, 0))).
    { apply (Permutation_in _ Pm) in I. destruct (In_nth _ _ (0, 0) I) as (k & K & Ek).
      destruct (Nat.eq_dec k j) as [->|Nk]; [rewrite Ek; exact F1|]. pose proof (ascending_nth s A k j ltac:(lia)). rewrite Ek in H. lra. }
    apply (Rmult_lt_reg_r (snd (nth j s (0, 0)) + / INR n)); [lra|]. unfold Rdiv. rewrite Rmult_assoc, Rinv_l by lra. lra.
  - exists (nth j s (0, 0)), (nth (Datatypes.S j) s (0, 0)).
    split; [apply (Permutation_in _ (Permutation_sym Pm)), nth_In; lia|].
    split; [apply (Permutation_in _ (Permutation_sym Pm)), nth_In; lia|]. exact E.
Qed.
Lemma chosen_cases : forall top middle bot n l x, (2 <= List.length l)%nat -> chosen top middle bot n l x ->
  (exists p, In p l /\ (forall q, In q l -> snd q <= snd p) /\ x - fst p = fst p - bot)
  \/ (exists p q, In p l /\ In q l /\ snd p <= snd q /\ x = (fst p + fst q) / 2
      /\ forall r, In r l -> snd r <= snd p \/ snd q <= snd r).
Proof.
  intros top middle bot n [|p0 [|p1 l]] x L C; try (cbn in L; lia).
  cbn [chosen] in C. destruct C as (s & j & (Pm & A & _) & J & M & F & E).
  assert (IN : forall k, (k < List.length s)%nat -> In (nth k s (0, 0)) (p0 :: p1 :: l))
    by (intros k K; apply (Permutation_in _ (Permutation_sym Pm)), nth_In; exact K).
  assert (OUT : forall q, In q (p0 :: p1 :: l) -> exists k, (k < List.length s)%nat /\ nth k s (0, 0) = q)
    by (intros q Q; apply (Permutation_in _ Pm) in Q; destruct (In_nth _ _ (0, 0) Q) as (k & K & Ek); eauto).
  assert (LE : forall i k, (i <= k)%nat -> (k < List.length s)%nat -> snd (nth i s (0, 0)) <= snd (nth k s (0, 0))).
  { intros i k H K. destruct (Nat.eq_dec i k) as [->|]; [lra|]. apply A. lia. }
  destruct (Nat.eqb_spec (Datatypes.S j) (List.length s)) as [Z|Z]; [left|right].
  - exists (nth j s (0, 0)). split; [apply IN; exact J|]. split; [|lra].
    intros q Q. destruct (OUT q Q) as (k & K & <-). apply LE; lia.
  - exists (nth j s (0, 0)), (nth (Datatypes.S j) s (0, 0)). split; [apply IN; lia|]. split; [apply IN; lia|].
    split; [apply LE; lia|]. split; [exact E|]. intros r' Q. destruct (OUT r' Q) as (k & K & <-).
    destruct (le_lt_dec k j); [left|right]; apply LE; lia.
Qed.
