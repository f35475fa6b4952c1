(** * Properties of the helpers of Tools/common.py (C65, C66, C70) *)
From Coq Require Import Reals ZArith Lia Lra List Arith Bool String Ascii FunctionalExtensionality.
From Coquelicot Require Import Coquelicot.
From Verif Require Import Py FFT_Base HalfSpace_Model HalfSpace_Spec HalfSpace_Proofs HalfSpace_Witness
  HalfSpace_Results2 Systems_Model Systems_Spec Systems_Proofs Systems_Results Systems_Results2
  Prop_Systems Tools_Model Tools_Spec Tools_Proofs.
From Coq Require Import List.
Import ListNotations.
Local Open Scope R_scope.

(** ** C65 compare_containers *)

Lemma pyeq_same : forall a b, pyeq a b = true <-> same a b.
Proof.
  assert (EQ : forall l, Forall (fun a => forall b, pyeq a b = true <-> same a b) l ->
            forall m, eqs l m = true <-> Forall2 same l m).
  { intros l H m. rewrite eqs_forall2. revert m. induction H; intros m; split; intro K;
      inversion K; subst; constructor; try (apply H; assumption); apply IHForall; assumption. }
  assert (NUM : forall x y : R, (if Req_EM_T x y then true else false) = true <-> x = y).
  { intros. destruct (Req_EM_T x y); split; congruence. }
  assert (TAC : forall a b x y, number a x -> number b y -> (x = y <-> same a b)).
  { intros a b x y A B. split.
    - intros <-. eapply same_num; eassumption.
    - intro S. destruct S as [|a b z A' B'|s|l m _|l m _]; try (inversion A; fail).
      inversion A; subst; inversion A'; subst; inversion B; subst; inversion B'; subst; congruence. }
  intro a. induction a using pyval_ind'; intros b; destruct b;
    try (split; [discriminate|intro S; inversion S; subst;
         repeat match goal with N : number _ _ |- _ => inversion N; clear N; subst end; discriminate]).
  - split; [constructor|reflexivity].
  - cbn. rewrite NUM. apply TAC; constructor.
  - cbn. rewrite NUM. apply TAC; constructor.
  - cbn. rewrite NUM. apply TAC; constructor.
  - cbn. rewrite NUM. apply TAC; constructor.
  - cbn. rewrite String.eqb_eq. split; [intros <-; constructor|].
    intro S; inversion S; subst; [|reflexivity].
    match goal with N : number _ _ |- _ => inversion N end.
  - rewrite pyeq_tuple, (EQ l H). split; [apply same_tuple|].
    intro S; inversion S; subst; [|assumption].
    match goal with N : number _ _ |- _ => inversion N end.
  - rewrite pyeq_list, (EQ l H). split; [apply same_list|].
    intro S; inversion S; subst; [|assumption].
    match goal with N : number _ _ |- _ => inversion N end.
Qed.

Lemma items_content : forall v l, items v = Some l <-> content v l.
Proof.
  assert (CH : forall s, content (VStr s) (chars s)).
  { induction s; constructor; assumption. }
  assert (CH' : forall v l, content v l -> forall s, v = VStr s -> l = chars s).
  { intros v l H. induction H; intros s' E; try discriminate; injection E as <-; [reflexivity|].
    cbn [chars]. f_equal. apply IHcontent. reflexivity. }
  intros v l. split.
  - destruct v; cbn [items]; intro E; try discriminate; injection E as <-; try constructor. apply CH.
  - intro H. pose proof H as H0. destruct H; try reflexivity.
    cbn [items]. f_equal. symmetry. exact (CH' _ _ H0 _ eq_refl).
Qed.

Lemma forall2_same : forall l m,
  Forall2 (fun a b => pyeq a b = true) l m <-> Forall2 same l m.
Proof.
  intros l m. split; intro H; induction H; constructor; try assumption; apply pyeq_same; assumption.
Qed.

(** Two containers compare equal exactly if they have the same number of
    entries and the entries are equal, whatever the container types. *)
Theorem C65_containers : forall a b l m, content a l -> content b m ->
  (compare_containers a b = true <-> Forall2 same l m).
Proof.
  intros a b l m A B. apply items_content in A, B. rewrite compare_iff, <- forall2_same. split.
  - intros [E|(l' & m' & A' & B' & F)].
    + exact (pyeq_items a b l m E A B).
    + congruence.
  - intro F. right. exists l, m. auto.
Qed.
Print Assumptions C65_containers.

(** Everything else compares by value. *)
Theorem C65_others : forall a b, ~ (container a /\ container b) ->
  (compare_containers a b = true <-> same a b).
Proof.
  intros a b N. rewrite compare_iff, pyeq_same. split; [|auto].
  intros [S|(l & m & A & B & _)]; [exact S|]. exfalso. apply N. apply items_content in A, B.
  split; eexists; eassumption.
Qed.
Print Assumptions C65_others.

Theorem C65_equivalence :
  (forall a, compare_containers a a = true)
  /\ (forall a b, compare_containers a b = compare_containers b a)
  /\ (forall a b c, compare_containers a b = true -> compare_containers b c = true ->
        compare_containers a c = true).
Proof.
  assert (SYM : forall a b, compare_containers a b = true -> compare_containers b a = true).
  { intros a b. rewrite !compare_iff. intros [E|(l & m & A & B & F)].
    - left. rewrite pyeq_sym. exact E.
    - right. exists m, l. split; [exact B|]. split; [exact A|]. clear A B.
      induction F; constructor; [rewrite pyeq_sym; assumption|assumption]. }
  split; [|split].
  - intro a. apply compare_iff. left. apply pyeq_refl.
  - intros a b. destruct (compare_containers a b) eqn:E1, (compare_containers b a) eqn:E2; try reflexivity.
    + rewrite (SYM a b E1) in E2. discriminate.
    + rewrite (SYM b a E2) in E1. discriminate.
  - assert (TR : forall l m, Forall2 (fun a b => pyeq a b = true) l m -> forall k,
        Forall2 (fun a b => pyeq a b = true) m k -> Forall2 (fun a b => pyeq a b = true) l k).
    { intros l m H. induction H; intros k K; inversion K; subst; constructor.
      - eapply pyeq_trans; eassumption.
      - apply IHForall2; assumption. }
    assert (IT : forall a b l, pyeq a b = true -> items a = Some l -> exists m, items b = Some m).
    { intros a b l E A. destruct a; try discriminate; destruct b; try discriminate; eexists; reflexivity. }
    intros a b c. rewrite !compare_iff. intros [E|(l & m & A & B & F)] [E'|(l' & m' & A' & B' & F')].
    + left. eapply pyeq_trans; eassumption.
    + right. rewrite pyeq_sym in E. destruct (IT b a l' E A') as (k & K).
      exists k, m'. split; [exact K|]. split; [exact B'|]. rewrite pyeq_sym in E.
      eapply TR; [|exact F']. exact (pyeq_items a b k l' E K A').
    + right. destruct (IT b c m E' B) as (k & K). exists l, k. split; [exact A|]. split; [exact K|].
      eapply TR; [exact F|]. exact (pyeq_items b c m k E' B K).
    + right. exists l, m'. split; [exact A|]. split; [exact B'|].
      assert (m = l') as <- by congruence. eapply TR; eassumption.
Qed.
Print Assumptions C65_equivalence.

(** Below the outermost level the container type matters, and a string is a
    container of its characters. *)
Theorem C65_nested_types_matter :
  (forall l, compare_containers (VTuple [VTuple l]) (VTuple [VList l]) = false)
  /\ compare_containers (VStr "ab") (VList [VStr "a"; VStr "b"]) = true.
Proof. split; [|reflexivity]. intro l. reflexivity. Qed.
Print Assumptions C65_nested_types_matter.

Example C65_nonvacuous :
  (content (VTuple [VInt 1; VFloat 2; VTuple []]) [VInt 1; VFloat 2; VTuple []]
   /\ content (VList [VFloat 1; VInt 2; VTuple []]) [VFloat 1; VInt 2; VTuple []]
   /\ Forall2 same [VInt 1; VFloat 2; VTuple []] [VFloat 1; VInt 2; VTuple []])
  /\ ~ (container (VInt 3) /\ container (VTuple [])) /\ same (VInt 3) (VFloat 3)
  /\ ~ Forall2 same [VInt 1] [VInt 2].
Proof.
  split; [|split; [|split]].
  - split; [constructor|]. split; [constructor|].
    repeat apply Forall2_cons; try apply Forall2_nil.
    + apply (same_num _ _ (IZR 1)); constructor.
    + apply (same_num _ _ (IZR 2)); constructor.
    + apply same_tuple. constructor.
  - intros [(l & H) _]. inversion H.
  - apply (same_num _ _ (IZR 3)); constructor.
  - intro H. inversion H as [|? ? ? ? S _]; subst. inversion S as [|? ? x A B| | |]; subst.
    inversion A; subst. inversion B as [n E1 E2|]; subst.
    apply eq_IZR in E2. discriminate.
Qed.

(** ** C66 Wavevector helpers *)

(** Component [i] of every direction is [2 pi / L] times the signed index of
    smallest magnitude. *)
Theorem C66_wavevectors : forall dims ns Ls, (2 <= dims)%nat ->
  List.length ns = dims -> List.length Ls = dims ->
  (forall d, (d < dims)%nat -> (0 < nth d ns 0)%nat /\ nth d Ls 0 <> 0) ->
  exists q, compute_wavevectors (Tuple ns) (Tuple Ls) dims = Ret q
    /\ List.length q = dims
    /\ forall d, (d < dims)%nat ->
         List.length (nth d q []) = nth d ns 0%nat
         /\ forall i, (i < nth d ns 0)%nat -> exists k, minimum_image (nth d ns 0%nat) i k
              /\ nth i (nth d q []) 0 = 2 * PI * IZR k / nth d Ls 0.
Proof.
  assert (ONE : forall n L, (0 < n)%nat -> L <> 0 -> exists v, wavevector n L = Ret v
     /\ List.length v = n /\ forall i, (i < n)%nat -> exists k, minimum_image n i k
              /\ nth i v 0 = 2 * PI * IZR k / L).
  { intros n L Hn HL. unfold wavevector. destruct (Nat.eqb_spec n 0); [lia|].
    destruct (Req_EM_T L 0); [contradiction|]. eexists. split; [reflexivity|].
    rewrite map_length, fftfreq_length by exact Hn. split; [reflexivity|]. intros i Hi.
    exists (if Nat.ltb (2 * i) n then Z.of_nat i else Z.of_nat i - Z.of_nat n)%Z. split.
    - destruct (Nat.ltb_spec (2 * i) n); split; try lia.
      + exists 0%Z. lia.
      + exists (-1)%Z. lia.
    - rewrite (nth_indep _ 0 (2 * PI * 0)) by (rewrite map_length, fftfreq_length; lia).
      rewrite (map_nth (fun f => 2 * PI * f)), fftfreq_nth by exact Hi.
      assert (INR n <> 0) by (apply not_0_INR; lia). field. split; assumption. }
  assert (ALL : forall dims ns Ls, List.length ns = dims -> List.length Ls = dims ->
    (forall d, (d < dims)%nat -> (0 < nth d ns 0)%nat /\ nth d Ls 0 <> 0) ->
    exists q, wavevectors ns Ls dims = Ret q /\ List.length q = dims
    /\ forall d, (d < dims)%nat ->
         List.length (nth d q []) = nth d ns 0%nat
         /\ forall i, (i < nth d ns 0)%nat -> exists k, minimum_image (nth d ns 0%nat) i k
              /\ nth i (nth d q []) 0 = 2 * PI * IZR k / nth d Ls 0).
  { induction dims as [|dims IH]; intros ns Ls H1 H2 H3.
    { exists []. split; [reflexivity|]. split; [reflexivity|]. intros; lia. }
    destruct ns as [|n ns]; [discriminate|]. destruct Ls as [|L Ls]; [discriminate|].
    destruct (H3 0%nat) as [P1 P2]; [lia|]. cbn [nth] in P1, P2.
    destruct (ONE n L P1 P2) as (v & V1 & V2 & V3).
    destruct (IH ns Ls) as (q & Q1 & Q2 & Q3).
    { cbn in H1; lia. } { cbn in H2; lia. } { intros d Hd. apply (H3 (S d)). lia. }
    cbn [wavevectors]. rewrite V1. cbn [bind]. rewrite Q1. cbn [bind].
    eexists. split; [reflexivity|]. split; [cbn; lia|]. intros [|d] Hd; cbn [nth].
    - split; assumption.
    - apply Q3. lia. }
  intros dims ns Ls Hd H1 H2 H3. rewrite compute_wavevectors_tuple by lia. apply ALL; assumption.
Qed.
Print Assumptions C66_wavevectors.

(** One dimension takes plain numbers. *)
Theorem C66_wavevectors_1d : forall n L, (0 < n)%nat -> L <> 0 ->
  exists v, compute_wavevectors (Scalar n) (Scalar L) 1 = Ret [v]
    /\ List.length v = n
    /\ forall i, (i < n)%nat -> exists k, minimum_image n i k /\ nth i v 0 = 2 * PI * IZR k / L.
Proof.
  intros n L Hn HL. unfold compute_wavevectors. cbn [Nat.eqb wavevectors bind].
  unfold wavevector. destruct (Nat.eqb_spec n 0); [lia|].
  destruct (Req_EM_T L 0); [contradiction|]. cbn [bind]. eexists. split; [reflexivity|].
  rewrite map_length, fftfreq_length by exact Hn. split; [reflexivity|]. intros i Hi.
  exists (if Nat.ltb (2 * i) n then Z.of_nat i else Z.of_nat i - Z.of_nat n)%Z. split.
  - destruct (Nat.ltb_spec (2 * i) n); split; try lia.
    + exists 0%Z. lia.
    + exists (-1)%Z. lia.
  - rewrite (nth_indep _ 0 (2 * PI * 0)) by (rewrite map_length, fftfreq_length; lia).
    rewrite (map_nth (fun f => 2 * PI * f)), fftfreq_nth by exact Hi.
    assert (INR n <> 0) by (apply not_0_INR; lia). field. split; assumption.
Qed.
Print Assumptions C66_wavevectors_1d.

(** Invalid input is never answered. *)
Theorem C66_wavevectors_raise :
  (forall n L, (n = 0%nat \/ L = 0) ->
     compute_wavevectors (Scalar n) (Scalar L) 1 = Exc ZeroDivisionError)
  /\ (forall ns Ls, compute_wavevectors (Tuple ns) (Tuple Ls) 1 = Exc TypeErr)
  /\ (forall n L dims, (2 <= dims)%nat -> compute_wavevectors (Scalar n) (Scalar L) dims = Exc TypeErr)
  /\ (forall ns Ls dims, (List.length ns < dims \/ List.length Ls < dims)%nat ->
        is_exc (compute_wavevectors (Tuple ns) (Tuple Ls) dims) = true).
Proof.
  split; [|split; [|split]].
  - intros n L H. unfold compute_wavevectors. cbn [Nat.eqb wavevectors bind]. unfold wavevector.
    destruct (Nat.eqb_spec n 0); [reflexivity|]. destruct (Req_EM_T L 0); [reflexivity|].
    exfalso. destruct H; contradiction.
  - reflexivity.
  - intros n L dims H. unfold compute_wavevectors. destruct (Nat.eqb_spec dims 1); [lia|].
    destruct (Nat.eqb_spec dims 0); [lia|]. reflexivity.
  - assert (ALL : forall dims ns Ls, (List.length ns < dims \/ List.length Ls < dims)%nat ->
        is_exc (wavevectors ns Ls dims) = true).
    { induction dims as [|dims IH]; intros ns Ls H; [lia|].
      destruct ns as [|n ns]; [reflexivity|]. destruct Ls as [|L Ls]; [reflexivity|].
      cbn [wavevectors]. destruct (wavevector n L); [|reflexivity]. cbn [bind].
      specialize (IH ns Ls ltac:(cbn in H; lia)). destruct (wavevectors ns Ls dims); [discriminate|reflexivity]. }
    intros ns Ls dims H. destruct (Nat.eq_dec dims 1) as [->|N]; [reflexivity|].
    rewrite compute_wavevectors_tuple by exact N. apply ALL. exact H.
Qed.
Print Assumptions C66_wavevectors_raise.

(** Weighted with any non-zero area the transforms invert each other. *)
Theorem C66_fftn_inverse : forall n m f A k l, (k < n)%nat -> (l < m)%nat -> A <> 0 ->
  ifftn n m (fftn n m f A) A k l = f k l /\ fftn n m (ifftn n m f A) A k l = f k l.
Proof.
  intros n m f A k l Hk Hl HA. split; [apply ifftn_fftn_eq|apply fftn_ifftn_eq]; try assumption; lia.
Qed.
Print Assumptions C66_fftn_inverse.

(** The zero mode is the integral: area times the mean. *)
Theorem C66_fftn_zero_mode : forall n m (h : field) A, (0 < n)%nat -> (0 < m)%nat ->
  fftn n m (fun x y => RtoC (h x y)) A 0%nat 0%nat = RtoC (A * (Rsum2 n m h / (INR n * INR m))).
Proof.
  intros n m h A Hn Hm. unfold fftn, np_fftn. unfold fftC, phase.
  transitivity (Cmult (RtoC (A / INR (n * m))) (RtoC (Rsum2 n m h))).
  - f_equal. rewrite Csum2_RtoC. apply Csum2_ext. intros. rewrite !w_0_l, Cconj_mult.
    replace (Cconj (RtoC 1)) with (RtoC 1) by (symmetry; apply Cconj_RtoC). ring.
  - rewrite <- RtoC_mult, mult_INR. f_equal.
    assert (INR n <> 0) by (apply not_0_INR; lia). assert (INR m <> 0) by (apply not_0_INR; lia).
    field. split; assumption.
Qed.
Print Assumptions C66_fftn_zero_mode.

(** Wavelengths are inverted and their order is swapped. *)
Theorem C66_q_from_lambda : forall lmin lmax qmin qmax,
  get_q_from_lambda lmin lmax = Ret (qmin, qmax) ->
  qmin * lmax = 2 * PI
  /\ (qmax = None <-> lmin = 0)
  /\ (forall q, qmax = Some q -> q * lmin = 2 * PI
        /\ (0 < lmin -> (lmin <= lmax <-> 0 < qmin <= q))).
Proof.
  intros lmin lmax qmin qmax. unfold get_q_from_lambda. pose proof PI_RGT_0 as P.
  destruct (Req_EM_T lmax 0) as [|N]; [discriminate|]. intro E. injection E as <- <-.
  split; [field; exact N|]. destruct (Req_EM_T lmin 0) as [Z|NZ].
  { split; [split; auto|]. intros; discriminate. }
  split; [split; [discriminate|contradiction]|]. intros q E. injection E as <-.
  split; [field; exact NZ|]. intro L0. split.
  - intro L. split; [apply Rdiv_lt_0_compat; lra|].
    apply Rmult_le_compat_l; [lra|]. apply Rinv_le_contravar; lra.
  - intros [Q0 Q].
    assert (0 < lmax).
    { destruct (Rlt_or_le 0 lmax); [assumption|]. exfalso.
      assert (lmax < 0) by lra. assert (/ lmax < 0) by (apply Rinv_lt_0_compat; assumption).
      unfold Rdiv in Q0. nra. }
    apply Rmult_le_reg_l with (2 * PI / lmin * (/ lmax)).
    { apply Rmult_lt_0_compat; [apply Rdiv_lt_0_compat; lra|apply Rinv_0_lt_compat; assumption]. }
    replace (2 * PI / lmin * / lmax * lmin) with (2 * PI / lmax) by (field; lra).
    replace (2 * PI / lmin * / lmax * lmax) with (2 * PI / lmin) by (field; lra). exact Q.
Qed.
Print Assumptions C66_q_from_lambda.
Theorem C66_q_from_lambda_raises : forall lmin lmax,
  lmax = 0 <-> get_q_from_lambda lmin lmax = Exc ZeroDivisionError.
Proof.
  intros lmin lmax. unfold get_q_from_lambda. destruct (Req_EM_T lmax 0); split; congruence.
Qed.
Print Assumptions C66_q_from_lambda_raises.

Example C66_nonvacuous :
  (forall d, (d < 2)%nat -> (0 < nth d [5; 4]%nat 0)%nat /\ nth d [2; 3] 0 <> 0)
  /\ minimum_image 4 2 (-2) /\ minimum_image 5 2 2
  /\ (forall k, minimum_image 4 2 k -> k = (-2)%Z)
  /\ (exists p, get_q_from_lambda 1 2 = Ret p).
Proof.
  split; [|split; [|split; [|split]]].
  - intros [|[|d]] H; cbn [nth]; try lia; split; try lia; lra.
  - split; [exists (-1)%Z; reflexivity|lia].
  - split; [exists 0%Z; reflexivity|lia].
  - intros k [(j & ->) H]. assert (j = -1)%Z by lia. subst. reflexivity.
  - unfold get_q_from_lambda. destruct (Req_EM_T 2 0); [lra|]. eexists. reflexivity.
Qed.

(** ** C70 Numerical gradient and mean error *)

(** If along every coordinate direction the function is differentiable, every
    entry of the result is the exact partial derivative at a point of that
    coordinate line at most half a step away. *)
Theorem C70_gradient : forall fn x delta (phi dphi : nat -> R -> R), delta <> 0 ->
  (forall i t x', (i < points (a_shape x))%nat -> stepped x i t x' -> fn x' = Ret (phi i t)) ->
  (forall i t, (i < points (a_shape x))%nat -> Rabs t <= Rabs delta / 2 ->
     is_derive (phi i) t (dphi i t)) ->
  exists g, evaluate_gradient fn x delta = Ret g /\ a_shape g = a_shape x
    /\ forall i, (i < points (a_shape x))%nat ->
         exists t, Rabs t < Rabs delta / 2 /\ entry g i = dphi i t.
Proof.
  intros fn x delta phi dphi HD HF HDer.
  assert (ST : forall i t, stepped x i t (bump x i t)).
  { intros i t. split; [reflexivity|]. intros k Hk. rewrite <- !flat_entry. apply flat_bump. exact Hk. }
  destruct (evaluate_gradient_ret fn x delta (fun i => phi i (0.5 * delta)) (fun i => phi i (- (0.5 * delta))))
    as (g & E & S & G).
  { intros i Hi. apply HF; [exact Hi|apply ST]. }
  { intros i Hi. apply HF; [exact Hi|apply ST]. }
  exists g. split; [exact E|]. split; [exact S|]. intros i Hi. rewrite <- flat_entry, (G i Hi).
  set (h := Rabs delta / 2). assert (0 < h) by (unfold h; pose proof (Rabs_pos_lt delta HD); lra).
  destruct (MVT_cor2 (phi i) (dphi i) (- h) h) as (c & C1 & C2); [lra| |].
  { intros c Hc. apply is_derive_Reals. apply HDer; [exact Hi|]. apply Rabs_le. fold h. lra. }
  exists c. split; [apply Rabs_def1; lra|].
  unfold h in C1. revert C1. unfold Rabs. destruct (Rcase_abs delta); intro C1.
  - replace (0.5 * delta) with (- (- delta / 2)) by lra.
    replace (- - (- delta / 2)) with (- delta / 2) by lra.
    replace (phi i (- (- delta / 2)) - phi i (- delta / 2))
      with (- (phi i (- delta / 2) - phi i (- (- delta / 2)))) by ring.
    rewrite C1. field. exact HD.
  - replace (0.5 * delta) with (delta / 2) by lra. rewrite C1. field. exact HD.
Qed.
Print Assumptions C70_gradient.

(** For functions that are quadratic along the coordinate directions the
    result is the exact gradient, for every step. *)
Theorem C70_gradient_exact : forall fn x delta (c0 c1 c2 : nat -> R), delta <> 0 ->
  (forall i t x', (i < points (a_shape x))%nat -> stepped x i t x' ->
     fn x' = Ret (c0 i + c1 i * t + c2 i * (t * t))) ->
  exists g, evaluate_gradient fn x delta = Ret g /\ a_shape g = a_shape x
    /\ forall i, (i < points (a_shape x))%nat -> entry g i = c1 i.
Proof.
  intros fn x delta c0 c1 c2 HD HF.
  assert (ST : forall i t, stepped x i t (bump x i t)).
  { intros i t. split; [reflexivity|]. intros k Hk. rewrite <- !flat_entry. apply flat_bump. exact Hk. }
  set (q := fun i t => c0 i + c1 i * t + c2 i * (t * t)).
  destruct (evaluate_gradient_ret fn x delta (fun i => q i (0.5 * delta)) (fun i => q i (- (0.5 * delta))))
    as (g & E & S & G).
  { intros i Hi. apply HF; [exact Hi|apply ST]. }
  { intros i Hi. apply HF; [exact Hi|apply ST]. }
  exists g. split; [exact E|]. split; [exact S|]. intros i Hi. rewrite <- flat_entry, (G i Hi).
  unfold q. replace 0.5 with (/ 2) by lra. field. exact HD.
Qed.
Print Assumptions C70_gradient_exact.

(** An exception of the function is passed on. *)
Theorem C70_gradient_raises : forall fn x delta e, (0 < points (a_shape x))%nat ->
  (forall x', a_shape x' = a_shape x -> fn x' = Exc e) ->
  evaluate_gradient fn x delta = Exc e.
Proof.
  intros fn x delta e H HF. unfold evaluate_gradient.
  rewrite (grad_go_exc fn x delta (fun _ => 0) (fun _ => 0) (size (a_shape x)) 0 e H); [reflexivity|lia|lia|].
  left. apply HF. reflexivity.
Qed.
Print Assumptions C70_gradient_raises.

(** The energy reported by the primal objective. *)
Definition energy_only (r : res (option R * option arr)) : res R :=
  match r with Ret (Some E, _) => Ret E | Ret (None, _) => Exc TypeErr | Exc e => Exc e end.

(** For a periodic half-space the numerical gradient of the primal objective
    is the gradient the objective itself reports, for every step. *)
Theorem C70_checks_primal_gradient : forall a s sf off x y delta, construct a = Ret s ->
  sf_grid sf = a_grid a -> points (a_shape x) = points (a_grid a) -> delta <> 0 ->
  exists E gr y' g,
    primal_objective (periodic s) sf off true x y = (y', Ret (Some E, Some gr))
    /\ evaluate_gradient (fun x' => energy_only (snd (primal_objective (periodic s) sf off false x' y)))
         x delta = Ret g
    /\ forall k, (k < points (a_grid a))%nat -> entry g k = entry gr k.
Proof.
  intros a s sf off x y delta H F N HD.
  set (unit := fun i (t : R) => mkArr (a_shape x) (fun p q =>
     if Nat.eqb (p * nth 1 (a_shape x) 1 + q)%nat i then t else 0)).
  assert (BU : forall i t, bump x i t = arr_add x (unit i t)) by reflexivity.
  assert (BACK : forall i t, arr_add (arr_add x (unit i t)) (unit i (- t)) = x).
  { intros i t. unfold arr_add, unit. cbn [a_shape a_val]. destruct x as [sh v]. cbn [a_shape a_val].
    f_equal. apply functional_extensionality; intro p. apply functional_extensionality; intro q.
    destruct (Nat.eqb _ _); ring. }
  assert (UE : forall i t k, (k < points (a_grid a))%nat ->
     entry (unit i t) k = (if Nat.eqb k i then t else 0)).
  { intros i t k Hk. rewrite <- N in Hk. rewrite <- flat_entry.
    exact (flat_mk (a_shape x) (fun j => if Nat.eqb j i then t else 0) k Hk). }
  assert (VD : forall b i t, (i < points (a_grid a))%nat ->
     vdot (points (a_grid a)) b (unit i t) = entry b i * t).
  { intros b i t Hi. unfold vdot.
    transitivity (Rsum (points (a_grid a)) (fun k => if Nat.eqb k i then entry b k * t else 0)).
    - apply Rsum_ext. intros k Hk. rewrite UE by exact Hk. destruct (Nat.eqb k i); ring.
    - rewrite (Rsum_delta _ i (fun k => entry b k * t)) by exact Hi. reflexivity. }
  destruct (C40_primal_gradient a s sf off x (unit 0%nat 0) y H F N eq_refl)
    as (E & gr & ? & ? & ? & y1 & ? & y3 & P1 & P3 & _).
  assert (EX : forall i t, (i < points (a_grid a))%nat -> exists E' Q,
     energy_only (snd (primal_objective (periodic s) sf off false (bump x i t) y)) = Ret E'
     /\ E' = E + entry gr i * t + / 2 * Q
     /\ forall t' E'', t' = - t ->
          energy_only (snd (primal_objective (periodic s) sf off false (bump x i t') y)) = Ret E'' ->
          E'' = E - entry gr i * t + / 2 * Q).
  { assert (ONE : forall i t, (i < points (a_grid a))%nat -> exists E' gr' hd y' y'',
       primal_objective (periodic s) sf off true (bump x i t) y = (y'', Ret (Some E', Some gr'))
       /\ primal_objective (periodic s) sf off false (bump x i t) y = (y', Ret (Some E', None))
       /\ primal_hessian_product (periodic s) (unit i t) = Ret hd
       /\ E' = E + entry gr i * t + / 2 * (entry hd i * t)
       /\ entry gr' i = entry gr i + entry hd i).
    { intros i t Hi.
      destruct (C40_primal_gradient a s sf off x (unit i t) y H F N eq_refl)
        as (E0 & gr0 & E' & gr' & hd & z1 & z2 & z3 & Q1 & Q2 & Q3 & Q4 & _ & Q5 & Q6).
      destruct (C40_primal_gradient a s sf off (bump x i t) (unit i (- t)) y H F N eq_refl)
        as (E1 & gr1 & ? & ? & ? & w1 & ? & w3 & R1 & R2 & _).
      rewrite P1 in Q1. injection Q1 as <- <- <-. rewrite BU in R1, R2.
      rewrite Q3 in R1. injection R1 as <- <- <-.
      exists E', gr', hd, w3, z2. rewrite BU. split; [exact Q3|]. split; [exact R2|]. split; [exact Q4|].
      split; [rewrite Q5, !VD by exact Hi; lra|]. apply Q6. exact Hi. }
    intros i t Hi. destruct (ONE i t Hi) as (E' & gr' & hd & y' & y'' & O1 & O2 & O3 & O4 & O5).
    exists E', (entry hd i * t). split; [rewrite O2; reflexivity|]. split; [exact O4|].
    intros t' E'' -> K. destruct (ONE i (- t) Hi) as (E2 & gr2 & hd2 & z' & z'' & S1 & S2 & S3 & S4 & S5).
    rewrite S2 in K. injection K as <-. rewrite S4.
    destruct (C40_primal_gradient a s sf off (bump x i t) (unit i (- t)) y H F N eq_refl)
      as (E3 & gr3 & E4 & gr4 & hd4 & w1 & w2 & w3 & R1 & _ & R3 & R4 & _ & R5 & _).
    rewrite O1 in R1. injection R1 as <- <- <-. rewrite BU, BACK, P1 in R3. injection R3 as <- <- <-.
    rewrite S3 in R4. injection R4 as <-. rewrite !VD in R5 by exact Hi. rewrite O5 in R5. lra. }
  set (en := fun x' => energy_only (snd (primal_objective (periodic s) sf off false x' y))) in *.
  set (val := fun i t => match en (bump x i t) with Ret v => v | Exc _ => 0 end).
  assert (VR : forall i t, (i < points (a_grid a))%nat -> en (bump x i t) = Ret (val i t)).
  { intros i t Hi. unfold val. destruct (EX i t Hi) as (E' & Q & K & _).
    change (en (bump x i t) = Ret E') in K. rewrite K. reflexivity. }
  destruct (evaluate_gradient_ret en x delta (fun i => val i (0.5 * delta)) (fun i => val i (- (0.5 * delta))))
    as (g & G1 & G2 & G3).
  { intros i Hi. apply VR. rewrite <- N. exact Hi. }
  { intros i Hi. apply VR. rewrite <- N. exact Hi. }
  exists E, gr, y1, g. split; [exact P1|]. split; [exact G1|].
  intros k Hk. rewrite <- flat_entry, G3 by (rewrite <- N in Hk; exact Hk).
  destruct (EX k (0.5 * delta) Hk) as (E' & Q & K1 & K2 & K3).
  change (en (bump x k (0.5 * delta)) = Ret E') in K1. rewrite (VR k _ Hk) in K1. injection K1 as K1. rewrite K1, K2.
  rewrite (K3 (- (0.5 * delta)) _ eq_refl (VR k _ Hk)). replace 0.5 with (/ 2) by lra. field. exact HD.
Qed.
Print Assumptions C70_checks_primal_gradient.

(** Arrays of one shape: the average absolute difference; it is zero exactly
    for equal arrays. *)
Theorem C70_mean_err : forall a b, okgrid (a_shape a) -> a_shape b = a_shape a ->
  exists e, mean_err a b false = Ret e
    /\ e = Rsum (points (a_shape a)) (fun k => Rabs (entry a k - entry b k)) / INR (points (a_shape a))
    /\ 0 <= e /\ (e = 0 <-> same_entries (points (a_shape a)) a b).
Proof.
  intros a b G S. rewrite mean_err_plain, S.
  replace (shape_eqb (a_shape a) (a_shape a)) with true by (symmetry; apply shape_eqb_refl). cbn [negb].
  destruct (binop_same Rminus (a_shape a) (a_val a) (a_val b) G) as (v & V1 & V2).
  rewrite V1. cbn [bind a_shape]. eexists. split; [reflexivity|].
  assert (SUM : asum (amap Rabs (mkArr (a_shape a) v))
     = Rsum (points (a_shape a)) (fun k => Rabs (entry a k - entry b k))).
  { unfold asum. cbn [amap a_shape a_val]. apply Rsum_ext. intros k Hk.
    change (entry (mkArr (a_shape a) (fun p q => Rabs (v p q))) k = Rabs (entry a k - entry b k)).
    rewrite (entry_ext (a_shape a) _ (fun p q => Rabs (a_val a p q - a_val b p q)) k G).
    - unfold entry. cbn [a_shape a_val]. rewrite S. reflexivity.
    - intros p q K. rewrite (V2 p q K). reflexivity.
    - exact Hk. }
  rewrite SUM. split; [reflexivity|].
  assert (NP : (0 < points (a_shape a))%nat) by (rewrite (npts_grid _ G); destruct G as (_ & ? & ?); nia).
  assert (0 < INR (points (a_shape a))) by (apply lt_0_INR; exact NP).
  assert (NN : 0 <= Rsum (points (a_shape a)) (fun k => Rabs (entry a k - entry b k)))
    by (apply Rsum_nonneg; intros; apply Rabs_pos).
  split; [apply Rmult_le_pos; [exact NN|left; apply Rinv_0_lt_compat; assumption]|].
  split.
  - intros E k Hk.
    assert (Z : Rsum (points (a_shape a)) (fun k => Rabs (entry a k - entry b k)) = 0).
    { apply Rmult_eq_reg_r with (/ INR (points (a_shape a))); [rewrite Rmult_0_l; exact E|].
      apply Rinv_neq_0_compat. lra. }
    pose proof (Rsum_zero_terms _ _ (fun i _ => Rabs_pos (entry a i - entry b i)) Z k Hk) as K.
    cbv beta in K. destruct (Req_dec (entry a k - entry b k) 0) as [Z0|NZ]; [lra|].
    pose proof (Rabs_no_R0 _ NZ). contradiction.
  - intro E. rewrite (Rsum_ext _ _ (fun _ => 0)).
    + rewrite Rsum_0. unfold Rdiv. ring.
    + intros k Hk. rewrite (E k Hk), Rminus_diag_eq by reflexivity. apply Rabs_R0.
Qed.
Print Assumptions C70_mean_err.

(** Different shapes, even if one could be broadcast to the other. *)
Theorem C70_mean_err_shapes : forall a b, a_shape a <> a_shape b ->
  mean_err a b false = Exc GenericExc.
Proof.
  intros a b H. rewrite mean_err_plain.
  destruct (shape_eqb (a_shape a) (a_shape b)) eqn:E; [|reflexivity].
  exfalso. apply H. apply shape_eqb_spec. exact E.
Qed.
Print Assumptions C70_mean_err_shapes.

(** With [rfft] a full spectrum is compared with a half spectrum over the
    stored half. *)
Theorem C70_mean_err_rfft : forall a b n m, (0 < n)%nat -> (0 < m)%nat ->
  a_shape a = [n; m] -> a_shape b = [n; (m / 2 + 1)%nat] \/ a_shape b = [n; m] ->
  mean_err a b true
  = Ret (Rsum2 n (m / 2 + 1) (fun k l => Rabs (a_val a k l - a_val b k l)) / INR (n * (m / 2 + 1))).
Proof.
  intros a b n m Hn Hm A B. set (h := (m / 2 + 1)%nat) in *.
  assert (HM : (h <= Nat.max m h)%nat /\ (Nat.max m h / 2 + 1 = h \/ m = 1)%nat).
  { split; [lia|]. unfold h. destruct (Nat.eq_dec m 1); [right; assumption|left].
    assert (m / 2 + 1 <= m)%nat.
    { pose proof (Nat.div_mod m 2 ltac:(lia)). lia. }
    rewrite Nat.max_l by assumption. reflexivity. }
  assert (H1 : m = 1%nat -> h = 1%nat) by (intros ->; reflexivity).
  assert (HB : (h <= m)%nat).
  { unfold h. pose proof (Nat.div_mod m 2 ltac:(lia)). destruct (Nat.eq_dec m 1); [subst; cbn; lia|lia]. }
  assert (W : forall c, c = h \/ c = m -> a_shape b = [n; c] ->
    mean_err a b true
    = Ret (Rsum2 n h (fun k l => Rabs (a_val a k l - a_val b k l)) / INR (n * h))).
  { intros c C Sb. unfold mean_err. rewrite A, Sb. cbn [combine map fst snd removelast last app].
    rewrite Nat.max_id. replace (Nat.max m c) with m by (destruct C; lia). fold h.
    unfold head_slice. rewrite A, Sb. cbn [List.length Nat.ltb Nat.leb combine map fst snd skipn app bind a_shape].
    rewrite Nat.min_id. replace (Nat.min h m) with h by lia. replace (Nat.min h c) with h by (destruct C; lia).
    replace (shape_eqb [n; h] [n; h]) with true by (symmetry; apply shape_eqb_refl). cbn [negb].
    assert (G : okgrid [n; h]).
    { split; [right; reflexivity|]. unfold gx, gy. cbn [nth]. unfold h. lia. }
    destruct (binop_same Rminus [n; h] (a_val a) (a_val b) G) as (v & V1 & V2).
    rewrite V1. cbn [bind a_shape]. f_equal. f_equal.
    - unfold amap. cbn [a_shape a_val]. rewrite (asum_grid [n; h] _ G). unfold total, gx, gy. cbn [nth].
      apply Rsum2_ext. intros x y Hx Hy. rewrite (V2 x y); [reflexivity|].
      split; unfold gx, gy; cbn [nth]; assumption.
    - cbn [size fold_right]. rewrite Nat.mul_1_r. reflexivity. }
  destruct B as [B|B]; [apply (W h)|apply (W m)]; auto.
Qed.
Print Assumptions C70_mean_err_rfft.

Example C70_nonvacuous :
  (let x := mkArr [2%nat] (fun p _ => INR p) in
   let fn := fun x' : arr => @Ret R (entry x' 0 * entry x' 0 + 3 * entry x' 1) in
   forall i t x', (i < points (a_shape x))%nat -> stepped x i t x' ->
     fn x' = Ret ((fun _ => 3) i + (fun i => if Nat.eqb i 0 then 0 else 3) i * t
                  + (fun i => if Nat.eqb i 0 then 1 else 0) i * (t * t)))
  /\ ((exists s, construct hsA = Ret s) /\ sf_grid hsurf = a_grid hsA
      /\ points [points (a_grid hsA)] = points (a_grid hsA))
  /\ okgrid [2; 3]%nat.
Proof.
  split; [|split].
  - cbv zeta. intros i t x' Hi [S E]. cbn [a_shape points fold_right] in Hi, E.
    rewrite (E 0%nat), (E 1%nat) by lia.
    change (entry (mkArr [2%nat] (fun p _ => INR p)) 0) with 0.
    change (entry (mkArr [2%nat] (fun p _ => INR p)) 1) with 1.
    destruct i as [|[|i]]; [| |lia]; cbn [Nat.eqb INR]; f_equal; ring.
  - split; [exact hsA_ok|]. split; [reflexivity|]. reflexivity.
  - split; [right; reflexivity|]. unfold gx, gy. cbn. lia.
Qed.
