(** Conjugate gradients on a finite set of points: orthogonality of the
    residuals and the dimension bound that makes the iteration finite.
    Mathematics only; the solver is not mentioned here. *)
From Coq Require Import Reals List Bool Arith Lia Lra.
From Verif Require Import CCG_Real.
Import ListNotations.
Local Open Scope R_scope.

Section Dot.
  Context {P : Type}.
  Variable l : list P.
  Definition dot (a b : P -> R) : R := lsum l (fun p => a p * b p).

  Lemma dot_sym a b : dot a b = dot b a.
  Proof. apply lsum_ext. intros; ring. Qed.
  Lemma dot_ext a a' b b' : (forall p, In p l -> a p = a' p) -> (forall p, In p l -> b p = b' p) ->
    dot a b = dot a' b'.
  Proof. intros H H'. apply lsum_ext. intros p Hp. rewrite H, H'; auto. Qed.
  Lemma dot_lin_l a b k d : dot (fun p => a p + k * b p) d = dot a d + k * dot b d.
  Proof.
    unfold dot. rewrite <- lsum_scal, <- lsum_plus. apply lsum_ext. intros; ring.
  Qed.
  Lemma dot_lin_r a b k d : dot d (fun p => a p + k * b p) = dot d a + k * dot d b.
  Proof. rewrite dot_sym, dot_lin_l, (dot_sym a), (dot_sym b). reflexivity. Qed.
  Lemma dot_self_nonneg a : 0 <= dot a a.
  Proof. apply lsum_nonneg. intros p _. apply Rle_0_sqr. Qed.
  Lemma dot_self_zero a : dot a a = 0 -> forall p, In p l -> a p = 0.
  Proof.
    intros H p Hp. apply Rsqr_0_uniq.
    apply (lsum_nonneg_eq0 l (fun p => a p * a p)); auto. intros; apply Rle_0_sqr.
  Qed.

  Fixpoint nsum (k : nat) (a : nat -> R) : R :=
    match k with O => 0 | S k => nsum k a + a k end.
  Lemma nsum_ext k a b : (forall i, (i < k)%nat -> a i = b i) -> nsum k a = nsum k b.
  Proof. induction k; simpl; intros H; auto. rewrite IHk, H; auto. Qed.
  Lemma nsum_one k : nsum k (fun _ => 1) = INR k.
  Proof. induction k; simpl nsum; [reflexivity|]. rewrite IHk, S_INR. reflexivity. Qed.
  Lemma nsum_zero k a : (forall i, (i < k)%nat -> a i = 0) -> nsum k a = 0.
  Proof. induction k; simpl; intros H; auto. rewrite IHk, H; auto. lra. Qed.
  Lemma nsum_lsum k (a : nat -> P -> R) :
    lsum l (fun p => nsum k (fun i => a i p)) = nsum k (fun i => lsum l (a i)).
  Proof.
    induction k; simpl; [apply lsum_zero; auto|].
    rewrite <- IHk, <- lsum_plus. reflexivity.
  Qed.
  Lemma nsum_single k a j : (j < k)%nat -> (forall i, (i < k)%nat -> i <> j -> a i = 0) -> nsum k a = a j.
  Proof.
    induction k; intros Hj H; [lia|]. simpl. destruct (Nat.eq_dec j k) as [->|E].
    - rewrite nsum_zero; [lra|]. intros i Hi. apply H; lia.
    - rewrite IHk; [rewrite (H k); [lra|lia|lia]|lia|]. intros i Hi. apply H; lia.
  Qed.

  (** At most as many mutually orthogonal non-zero vectors as points. *)
  Lemma orthogonal_few (g : nat -> P -> R) k :
    (forall i, (i < k)%nat -> dot (g i) (g i) <> 0) ->
    (forall i j, (i < k)%nat -> (j < k)%nat -> i <> j -> dot (g i) (g j) = 0) ->
    (k <= length l)%nat.
  Proof.
    intros Hn Ho. apply INR_le.
    pose (s := fun p => nsum k (fun i => g i p * g i p / dot (g i) (g i))).
    assert (Hs : forall p, In p l -> s p <= 1).
    { intros p Hp.
      pose (v := fun q => nsum k (fun i => g i p / dot (g i) (g i) * g i q)).
      assert (Hv : forall m, (m <= k)%nat -> dot (fun q => nsum m (fun i => g i p / dot (g i) (g i) * g i q)) v
                   = nsum m (fun i => g i p * g i p / dot (g i) (g i))).
      { induction m; intros Hm.
        - apply lsum_zero. intros; simpl; ring.
        - cbn [nsum].
          rewrite (dot_lin_l (fun q => nsum m (fun i => g i p / dot (g i) (g i) * g i q)) (g m)
                     (g m p / dot (g m) (g m)) v), IHm by lia.
          f_equal.
          assert (Hd : dot (g m) v = g m p).
          { unfold dot, v.
            rewrite (lsum_ext l _ (fun q => nsum k (fun i => g i p / dot (g i) (g i) * (g m q * g i q)))).
            2:{ intros q _. clear. induction k as [|k0 IHk0]; simpl; [ring|]. rewrite <- IHk0. ring. }
            rewrite nsum_lsum, (nsum_single k _ m); [|lia|].
            - rewrite lsum_scal. fold (dot (g m) (g m)). field. apply Hn. lia.
            - intros i Hi E. rewrite lsum_scal. fold (dot (g m) (g i)). rewrite (Ho m i); try lia. ring. }
          rewrite Hd. field. apply Hn. lia. }
      specialize (Hv k (le_n k)). fold v in Hv. fold (s p) in Hv.
      assert (Hvp : v p = s p).
      { unfold v, s. apply nsum_ext. intros i Hi. field. apply Hn. auto. }
      assert (v p * v p <= dot v v).
      { apply (lsum_nonneg_ge l (fun p => v p * v p)); auto. intros; apply Rle_0_sqr. }
      rewrite Hv, Hvp in H. destruct (Rle_lt_dec (s p) 1) as [L|L]; auto.
      exfalso. pose proof (Rmult_lt_compat_r (s p) 1 (s p) ltac:(lra) L). lra. }
    assert (Hk : INR k = lsum l s).
    { unfold s. rewrite nsum_lsum. rewrite <- nsum_one. apply nsum_ext. intros i Hi.
      rewrite (lsum_ext l _ (fun p => / dot (g i) (g i) * (g i p * g i p))) by (intros; unfold Rdiv; ring).
      rewrite lsum_scal. fold (dot (g i) (g i)). field. apply Hn; auto. }
    rewrite Hk. clearbody s. clear - Hs. induction l as [|a l' IH]; [unfold lsum; simpl; lra|].
    cbn [length]. rewrite S_INR.
    assert (s a <= 1) by (apply Hs; left; auto).
    assert (lsum l' s <= INR (length l')) by (apply IH; intros; apply Hs; right; auto).
    unfold lsum in *. simpl in *. lra.
  Qed.

  (** ** The conjugate gradient recurrences *)
  Section CG.
    Variables g t q : nat -> P -> R.
    Variable tau : nat -> R.
    Variable k : nat.
    Hypothesis Ht0 : forall p, In p l -> t 0%nat p = g 0%nat p.
    Hypothesis Ht : forall i, (i < k)%nat -> forall p, In p l ->
      t (S i) p = g (S i) p + dot (g (S i)) (g (S i)) / dot (g i) (g i) * t i p.
    Hypothesis Hg : forall i, (i < k)%nat -> forall p, In p l ->
      g (S i) p = g i p + tau i * q i p.
    Hypothesis Htau : forall i, (i < k)%nat -> tau i * (- dot (q i) (t i)) = dot (g i) (t i).
    Hypothesis Hsym : forall i j, (i <= k)%nat -> (j <= k)%nat -> dot (q i) (t j) = dot (q j) (t i).
    Hypothesis Hne : forall i, (i < k)%nat -> dot (g i) (g i) <> 0.

    Lemma cg_all i : (i <= k)%nat ->
      (forall j, (j < i)%nat -> dot (g i) (t j) = 0) /\
      (forall j, (j < i)%nat -> dot (g i) (g j) = 0) /\
      dot (g i) (t i) = dot (g i) (g i) /\
      (forall j, (j < i)%nat -> dot (q j) (t i) = 0).
    Proof.
      induction i as [i IH] using lt_wf_ind. intros Hi.
      destruct i as [|i].
      { repeat split; try (intros; lia). apply dot_ext; auto. }
      destruct (IH i ltac:(lia) ltac:(lia)) as (Ha&Hb&Hc&Hd).
      assert (Hgt : forall j, (j < S i)%nat -> dot (g (S i)) (t j) = 0).
      { intros j Hj. rewrite (dot_ext _ (fun p => g i p + tau i * q i p) (t j) (t j)) by (auto; apply Hg; lia).
        rewrite dot_lin_l. destruct (Nat.eq_dec j i) as [->|E].
        - rewrite <- (Htau i) by lia. ring.
        - rewrite Ha by lia. rewrite Hsym by lia. rewrite Hd by lia. ring. }
      assert (Hgg : forall j, (j < S i)%nat -> dot (g (S i)) (g j) = 0).
      { intros j Hj. destruct j as [|j].
        - rewrite (dot_ext _ (g (S i)) _ (t 0%nat)); auto. intros; symmetry; auto.
        - rewrite (dot_ext _ (g (S i)) _
            (fun p => t (S j) p + (- (dot (g (S j)) (g (S j)) / dot (g j) (g j))) * t j p)); auto.
          + rewrite dot_lin_r, !Hgt by lia. ring.
          + intros p Hp. rewrite (Ht j) by (auto; lia). ring. }
      assert (Hct : dot (g (S i)) (t (S i)) = dot (g (S i)) (g (S i))).
      { rewrite (dot_ext (g (S i)) (g (S i)) (t (S i)) _ ltac:(auto) (Ht i ltac:(lia))).
        rewrite dot_lin_r, Hgt by lia. ring. }
      repeat split; auto.
      intros j Hj.
      assert (Htj : tau j <> 0).
      { intros E. pose proof (Htau j ltac:(lia)) as Hx. rewrite E in Hx.
        destruct (IH j ltac:(lia) ltac:(lia)) as (_&_&Hcj&_). rewrite Hcj in Hx.
        apply (Hne j ltac:(lia)). lra. }
      assert (Hq : dot (q j) (g (S i)) * tau j = dot (g (S j)) (g (S i)) - dot (g j) (g (S i))).
      { rewrite (dot_ext (g (S j)) _ (g (S i)) (g (S i)) (Hg j ltac:(lia)) ltac:(auto)).
        rewrite dot_lin_l. ring. }
      rewrite (dot_ext (q j) (q j) (t (S i)) _ ltac:(auto) (Ht i ltac:(lia))).
      rewrite dot_lin_r.
      rewrite (dot_sym (g j)), (Hgg j Hj) in Hq.
      destruct (Nat.eq_dec j i) as [->|E].
      - pose proof (Htau i ltac:(lia)) as Hx. rewrite Hc in Hx.
        apply (Rmult_eq_reg_r (tau i)); auto.
        replace ((dot (q i) (g (S i)) + dot (g (S i)) (g (S i)) / dot (g i) (g i) * dot (q i) (t i)) * tau i)
          with (dot (q i) (g (S i)) * tau i - dot (g (S i)) (g (S i)) / dot (g i) (g i) * (tau i * - dot (q i) (t i))) by ring.
        rewrite Hq, Hx. field. apply Hne. lia.
      - rewrite Hd by lia. rewrite (dot_sym (g (S j))), (Hgg (S j)) in Hq by lia.
        apply (Rmult_eq_reg_r (tau j)); auto. rewrite Rmult_plus_distr_r, Hq. ring.
    Qed.

    Lemma cg_orthogonal i j : (i <= k)%nat -> (j <= k)%nat -> i <> j -> dot (g i) (g j) = 0.
    Proof.
      intros Hi Hj E. destruct (lt_dec j i) as [L|L].
      - apply (cg_all i Hi); auto.
      - rewrite dot_sym. apply (cg_all j Hj). lia.
    Qed.

    Lemma cg_short : (k <= length l)%nat.
    Proof. apply (orthogonal_few g); auto. intros. apply cg_orthogonal; lia. Qed.
  End CG.
End Dot.
