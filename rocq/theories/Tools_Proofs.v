(** * Proofs about the helpers of Tools/common.py *)
From Coq Require Import Reals ZArith Lia Lra List Arith Bool String Ascii FunctionalExtensionality.
From Coquelicot Require Import Coquelicot.
From Verif Require Import Py FFT_Base HalfSpace_Model Systems_Model Tools_Model.
From Coq Require Import List.
Import ListNotations.
Local Open Scope R_scope.

(** ** Equality of Python values *)
Section Ind.
  Variable P : pyval -> Prop.
  Hypothesis HN : P VNone.
  Hypothesis HI : forall n, P (VInt n).
  Hypothesis HF : forall r, P (VFloat r).
  Hypothesis HS : forall s, P (VStr s).
  Hypothesis HT : forall l, Forall P l -> P (VTuple l).
  Hypothesis HL : forall l, Forall P l -> P (VList l).
  Fixpoint pyval_ind' (v : pyval) : P v :=
    let fix go (l : list pyval) : Forall P l :=
      match l with
      | [] => Forall_nil P
      | x :: l' => Forall_cons x (pyval_ind' x) (go l')
      end in
    match v with
    | VNone => HN | VInt n => HI n | VFloat r => HF r | VStr s => HS s
    | VTuple l => HT l (go l) | VList l => HL l (go l)
    end.
End Ind.

Fixpoint eqs (l m : list pyval) : bool :=
  match l, m with
  | [], [] => true
  | x :: l', y :: m' => andb (pyeq x y) (eqs l' m')
  | _, _ => false
  end.
Lemma pyeq_tuple : forall l m, pyeq (VTuple l) (VTuple m) = eqs l m.
Proof. reflexivity. Qed.
Lemma pyeq_list : forall l m, pyeq (VList l) (VList m) = eqs l m.
Proof. reflexivity. Qed.

Lemma eqs_forall2 : forall l m, eqs l m = true <-> Forall2 (fun a b => pyeq a b = true) l m.
Proof.
  induction l as [|x l IH]; intros [|y m]; cbn [eqs]; split; intro H; try discriminate;
    try constructor; try (inversion H; fail).
  - apply andb_true_iff in H. apply H.
  - apply andb_true_iff in H. apply IH, H.
  - inversion H; subst. apply andb_true_iff. split; [assumption|apply IH; assumption].
Qed.

Lemma combine_forall2 : forall l m, List.length l = List.length m ->
  (forallb (fun p => pyeq (fst p) (snd p)) (combine l m) = true
   <-> Forall2 (fun a b => pyeq a b = true) l m).
Proof.
  induction l as [|x l IH]; intros [|y m] E; try discriminate; cbn [combine forallb fst snd].
  - split; constructor.
  - rewrite andb_true_iff, IH by (cbn in E; lia). split; intro H.
    + constructor; apply H.
    + inversion H; subst. split; assumption.
Qed.

Lemma pyeq_refl : forall v, pyeq v v = true.
Proof.
  induction v using pyval_ind'; try reflexivity.
  - cbn. destruct (Req_EM_T (IZR n) (IZR n)); congruence.
  - cbn. destruct (Req_EM_T r r); congruence.
  - cbn. apply String.eqb_refl.
  - rewrite pyeq_tuple. apply eqs_forall2. induction H; constructor; assumption.
  - rewrite pyeq_list. apply eqs_forall2. induction H; constructor; assumption.
Qed.

Lemma forall2_refl : forall l, Forall2 (fun a b => pyeq a b = true) l l.
Proof. induction l; constructor; [apply pyeq_refl|assumption]. Qed.

Lemma Req_bool_sym : forall x y : R,
  (if Req_EM_T x y then true else false) = (if Req_EM_T y x then true else false).
Proof. intros. destruct (Req_EM_T x y), (Req_EM_T y x); congruence. Qed.

Lemma pyeq_sym : forall a b, pyeq a b = pyeq b a.
Proof.
  assert (EQ : forall l, Forall (fun a => forall b, pyeq a b = pyeq b a) l ->
            forall m, eqs l m = eqs m l).
  { intros l H. induction H; intros [|y m]; cbn [eqs]; try reflexivity.
    rewrite H, IHForall. reflexivity. }
  intro a. induction a using pyval_ind'; intros [| | | |m|m]; try reflexivity;
    try (cbn; apply Req_bool_sym).
  - cbn. apply String.eqb_sym.
  - rewrite !pyeq_tuple. apply EQ. assumption.
  - rewrite !pyeq_list. apply EQ. assumption.
Qed.

Lemma pyeq_trans : forall a b c, pyeq a b = true -> pyeq b c = true -> pyeq a c = true.
Proof.
  assert (EQ : forall l, Forall (fun a => forall b c, pyeq a b = true -> pyeq b c = true -> pyeq a c = true) l ->
            forall m k, eqs l m = true -> eqs m k = true -> eqs l k = true).
  { intros l H. induction H; intros [|y m] [|z k]; cbn [eqs]; try discriminate; try reflexivity.
    rewrite !andb_true_iff. intros [A B] [C D]. split; [eapply H|eapply IHForall]; eassumption. }
  assert (NUM : forall x y z : R, (if Req_EM_T x y then true else false) = true ->
     (if Req_EM_T y z then true else false) = true -> (if Req_EM_T x z then true else false) = true).
  { intros x y z. destruct (Req_EM_T x y), (Req_EM_T y z), (Req_EM_T x z); congruence. }
  intro a. induction a using pyval_ind'; intros b c A B;
    destruct b; try discriminate; destruct c; try discriminate; try reflexivity;
    try (eapply NUM; [exact A|exact B]).
  - cbn in *. apply String.eqb_eq in A, B. apply String.eqb_eq. congruence.
  - rewrite pyeq_tuple in *. eapply EQ; eassumption.
  - rewrite pyeq_list in *. eapply EQ; eassumption.
Qed.

Lemma chars_inj : forall s t, Forall2 (fun a b => pyeq a b = true) (chars s) (chars t) -> s = t.
Proof.
  induction s as [|c s IH]; intros [|d t] H; inversion H; subst; try reflexivity.
  rewrite (IH t H5).
  change (String.eqb (String c EmptyString) (String d EmptyString) = true) in H3.
  apply String.eqb_eq in H3. congruence.
Qed.

Lemma pyeq_items : forall a b l m, pyeq a b = true -> items a = Some l -> items b = Some m ->
  Forall2 (fun a b => pyeq a b = true) l m.
Proof.
  intros a b l m E A B. destruct a; try discriminate; destruct b; try discriminate;
    cbn in A, B; injection A as <-; injection B as <-.
  - cbn in E. apply String.eqb_eq in E. subst. apply forall2_refl.
  - apply eqs_forall2. exact E.
  - apply eqs_forall2. exact E.
Qed.

Lemma forall2_length : forall l m,
  Forall2 (fun a b => pyeq a b = true) l m -> List.length l = List.length m.
Proof. intros l m H. induction H; cbn [List.length]; congruence. Qed.

Lemma compare_iff : forall a b, compare_containers a b = true <->
  pyeq a b = true \/ exists l m, items a = Some l /\ items b = Some m
                        /\ Forall2 (fun a b => pyeq a b = true) l m.
Proof.
  intros a b. unfold compare_containers. destruct (pyeq a b) eqn:E; cbn [negb].
  { split; auto. }
  destruct (items a) as [l|] eqn:A, (items b) as [m|] eqn:B.
  2-4: split; [discriminate|intros [H|(l' & m' & H1 & H2 & _)]; congruence].
  destruct (Nat.eqb_spec (List.length l) (List.length m)) as [L|L]; cbn [negb].
  - rewrite (combine_forall2 l m L). split.
    + intro H. right. exists l, m. auto.
    + intros [H|(l' & m' & H1 & H2 & H3)]; congruence.
  - split; [discriminate|]. intros [H|(l' & m' & H1 & H2 & H3)]; [congruence|].
    apply forall2_length in H3. congruence.
Qed.

(** ** fftfreq *)
Lemma fftfreq_length : forall n d, (0 < n)%nat -> List.length (fftfreq n d) = n.
Proof.
  intros n d H. unfold fftfreq. rewrite map_length, app_length, !map_length, !seq_length.
  pose proof (Nat.div_mod n 2 ltac:(lia)). pose proof (Nat.div_mod (n - 1) 2 ltac:(lia)).
  pose proof (Nat.mod_upper_bound n 2 ltac:(lia)). pose proof (Nat.mod_upper_bound (n - 1) 2 ltac:(lia)). lia.
Qed.

Lemma fftfreq_nth : forall n d i, (i < n)%nat ->
  nth i (fftfreq n d) 0
  = IZR (if Nat.ltb (2 * i) n then Z.of_nat i else Z.of_nat i - Z.of_nat n) / (INR n * d).
Proof.
  intros n d i H. pose proof (Nat.div_mod n 2 ltac:(lia)) as D1. pose proof (Nat.div_mod (n - 1) 2 ltac:(lia)) as D2.
  pose proof (Nat.mod_upper_bound n 2 ltac:(lia)). pose proof (Nat.mod_upper_bound (n - 1) 2 ltac:(lia)).
  unfold fftfreq. set (N := ((n - 1) / 2 + 1)%nat) in *. set (h := (n / 2)%nat) in *.
  rewrite (nth_indep _ 0 (IZR 0 * (1 / (INR n * d)))).
  2:{ rewrite map_length, app_length, !map_length, !seq_length. lia. }
  rewrite (map_nth (fun k => IZR k * (1 / (INR n * d)))).
  assert (E : nth i (map (fun i => Z.of_nat i) (seq 0 N)
     ++ map (fun i => (Z.of_nat i - Z.of_nat h)%Z) (seq 0 h)) 0%Z
     = if Nat.ltb (2 * i) n then Z.of_nat i else (Z.of_nat i - Z.of_nat n)%Z).
  { destruct (Nat.ltb_spec (2 * i) n).
    - rewrite app_nth1 by (rewrite map_length, seq_length; lia).
      rewrite (nth_indep _ 0%Z (Z.of_nat 0)) by (rewrite map_length, seq_length; lia).
      rewrite (map_nth (fun i => Z.of_nat i)), seq_nth by lia. lia.
    - rewrite app_nth2 by (rewrite map_length, seq_length; lia).
      rewrite map_length, seq_length.
      rewrite (nth_indep _ 0%Z (Z.of_nat 0 - Z.of_nat h)%Z) by (rewrite map_length, seq_length; lia).
      rewrite (map_nth (fun i => (Z.of_nat i - Z.of_nat h)%Z)), seq_nth by lia. lia. }
  rewrite E. unfold Rdiv. rewrite Rmult_1_l. reflexivity.
Qed.

(** ** Transforms *)
Lemma npts_INR : forall n m, RtoC (npts n m) = RtoC (INR (n * m)).
Proof. intros. unfold npts. rewrite mult_INR. reflexivity. Qed.

Lemma INR_C_neq : forall n m, (0 < n)%nat -> (0 < m)%nat -> RtoC (INR (n * m)) <> RtoC 0.
Proof. intros n m H K E. rewrite <- npts_INR in E. exact (npts_neq n m H K E). Qed.

Lemma Csum2_scal' : forall n m c f,
  Csum2 n m (fun x y => Cmult c (f x y)) = Cmult c (Csum2 n m f).
Proof. intros. apply Csum2_scal. Qed.

Lemma fftC_scal : forall n m c f k l,
  fftC n m (fun x y => Cmult c (f x y)) k l = Cmult c (fftC n m f k l).
Proof.
  intros. unfold fftC. rewrite <- Csum2_scal'. apply Csum2_ext. intros. ring.
Qed.
Lemma ifft2_scal : forall n m c f k l,
  ifft2 n m (fun x y => Cmult c (f x y)) k l = Cmult c (ifft2 n m f k l).
Proof.
  intros. unfold ifft2. rewrite <- Csum2_scal'. apply Csum2_ext. intros. ring.
Qed.

Lemma weights : forall N I : R, N <> 0 -> I <> 0 ->
  Cmult (Cmult (RtoC (I / N)) (Cmult (RtoC (N / I)) (Cinv (RtoC N)))) (RtoC N) = RtoC 1.
Proof.
  intros N I HN HI. rewrite <- RtoC_inv by exact HN. rewrite <- !RtoC_mult. f_equal.
  field. split; assumption.
Qed.

Lemma fftn_ifftn_eq : forall n m A I k l, (0 < n)%nat -> (0 < m)%nat -> I <> 0 ->
  (k < n)%nat -> (l < m)%nat -> fftn n m (ifftn n m A I) I k l = A k l.
Proof.
  intros n m A I k l Hn Hm HI Hk Hl. unfold fftn, ifftn, np_fftn, np_ifftn.
  assert (NZ : INR (n * m) <> 0) by (apply not_0_INR; nia).
  transitivity (Cmult (RtoC (I / INR (n * m)))
    (fftC n m (fun x y => Cmult (Cmult (RtoC (INR (n * m) / I)) (Cinv (RtoC (INR (n * m)))))
                                (ifft2 n m A x y)) k l)).
  { f_equal. unfold fftC. apply Csum2_ext. intros. unfold Cdiv. ring. }
  rewrite fftC_scal, fftC_ifft2, npts_INR by assumption.
  transitivity (Cmult (Cmult (Cmult (RtoC (I / INR (n * m))) (Cmult (RtoC (INR (n * m) / I))
     (Cinv (RtoC (INR (n * m)))))) (RtoC (INR (n * m)))) (A k l)); [ring|].
  rewrite weights by assumption. ring.
Qed.

Lemma ifftn_fftn_eq : forall n m f I x y, (0 < n)%nat -> (0 < m)%nat -> I <> 0 ->
  (x < n)%nat -> (y < m)%nat -> ifftn n m (fftn n m f I) I x y = f x y.
Proof.
  intros n m f I x y Hn Hm HI Hx Hy. unfold fftn, ifftn, np_fftn, np_ifftn.
  assert (NZ : INR (n * m) <> 0) by (apply not_0_INR; nia).
  rewrite ifft2_scal, ifft2_fftC, npts_INR by assumption. unfold Cdiv.
  transitivity (Cmult (Cmult (Cmult (RtoC (I / INR (n * m))) (Cmult (RtoC (INR (n * m) / I))
     (Cinv (RtoC (INR (n * m)))))) (RtoC (INR (n * m)))) (f x y)); [ring|].
  rewrite weights by assumption. ring.
Qed.

(** ** Central differences *)
Lemma evaluate_gradient_go : forall fn x delta,
  evaluate_gradient fn x delta
  = bind (grad_go fn x delta (size (a_shape x))) (fun g =>
    Ret (mkArr (a_shape x) (fun p q => g (p * nth 1 (a_shape x) 1 + q)%nat))).
Proof. reflexivity. Qed.

Lemma grad_go_ret : forall fn x delta (P M : nat -> R) n,
  (forall i, (i < n)%nat -> fn (bump x i (0.5 * delta)) = Ret (P i)) ->
  (forall i, (i < n)%nat -> fn (bump x i (- (0.5 * delta))) = Ret (M i)) ->
  exists g, grad_go fn x delta n = Ret g
    /\ forall i, (i < n)%nat -> g i = (P i - M i) / delta.
Proof.
  intros fn x delta P M n. induction n as [|n IH]; intros HP HM.
  { exists (fun _ => 0). split; [reflexivity|]. intros; lia. }
  destruct IH as (g & E & G); [intros; apply HP; lia|intros; apply HM; lia|].
  cbn [grad_go]. rewrite E. cbn [bind]. rewrite HP by lia. cbn [bind]. rewrite HM by lia. cbn [bind].
  eexists. split; [reflexivity|]. intros i Hi. cbv beta.
  destruct (Nat.eqb_spec i n); [subst; reflexivity|]. apply G. lia.
Qed.

Lemma grad_go_exc : forall fn x delta (P M : nat -> R) n i e, (i < n)%nat ->
  (forall j, (j < i)%nat -> fn (bump x j (0.5 * delta)) = Ret (P j)) ->
  (forall j, (j < i)%nat -> fn (bump x j (- (0.5 * delta))) = Ret (M j)) ->
  fn (bump x i (0.5 * delta)) = Exc e \/
    fn (bump x i (0.5 * delta)) = Ret (P i) /\ fn (bump x i (- (0.5 * delta))) = Exc e ->
  grad_go fn x delta n = Exc e.
Proof.
  intros fn x delta P M n i e Hi HP HM HE. induction n as [|n IH]; [lia|].
  cbn [grad_go]. destruct (Nat.eq_dec i n) as [->|N].
  - destruct (grad_go_ret fn x delta P M n HP HM) as (g & E & _). rewrite E. cbn [bind].
    destruct HE as [HE|[HE HE']]; rewrite HE; cbn [bind]; [reflexivity|]. rewrite HE'. reflexivity.
  - rewrite IH by lia. reflexivity.
Qed.

Lemma flat_index : forall x k, (k < size (a_shape x))%nat -> nth 1 (a_shape x) 1%nat <> 0%nat.
Proof.
  intros x k H E. destruct (a_shape x) as [|n [|m l]]; cbn [nth] in E; try lia.
  subst m. cbn [size fold_right] in H. lia.
Qed.
Lemma flat_bump : forall x i t k, (k < size (a_shape x))%nat ->
  flat (bump x i t) k = flat x k + (if Nat.eqb k i then t else 0).
Proof.
  intros x i t k H. pose proof (flat_index x k H) as N.
  unfold flat, bump. cbn [a_shape a_val]. do 2 f_equal.
  pose proof (Nat.div_mod k (nth 1 (a_shape x) 1%nat) N).
  replace (k / nth 1 (a_shape x) 1 * nth 1 (a_shape x) 1 + k mod nth 1 (a_shape x) 1)%nat with k by lia.
  reflexivity.
Qed.
Lemma flat_mk : forall sh (g : nat -> R) k, (k < size sh)%nat ->
  flat (mkArr sh (fun p q => g (p * nth 1 sh 1 + q)%nat)) k = g k.
Proof.
  intros sh g k H. pose proof (flat_index (mkArr sh (fun _ _ => 0)) k H) as N. cbn [a_shape] in N.
  unfold flat. cbn [a_shape a_val]. f_equal. pose proof (Nat.div_mod k (nth 1 sh 1%nat) N). lia.
Qed.

Lemma evaluate_gradient_ret : forall fn x delta (P M : nat -> R),
  (forall i, (i < size (a_shape x))%nat -> fn (bump x i (0.5 * delta)) = Ret (P i)) ->
  (forall i, (i < size (a_shape x))%nat -> fn (bump x i (- (0.5 * delta))) = Ret (M i)) ->
  exists g, evaluate_gradient fn x delta = Ret g /\ a_shape g = a_shape x
    /\ forall i, (i < size (a_shape x))%nat -> flat g i = (P i - M i) / delta.
Proof.
  intros fn x delta P M HP HM. destruct (grad_go_ret fn x delta P M _ HP HM) as (g & E & G).
  rewrite evaluate_gradient_go, E. cbn [bind]. eexists. split; [reflexivity|].
  split; [reflexivity|]. intros i Hi. rewrite flat_mk by exact Hi. apply G. exact Hi.
Qed.

(** ** Mean error *)
Lemma combine_max_min : forall g,
  map (fun p => Nat.min (fst p) (snd p))
      (combine (map (fun p => Nat.max (fst p) (snd p)) (combine g g)) g) = g.
Proof.
  induction g as [|n g IH]; [reflexivity|]. cbn [combine map fst snd]. rewrite IH. f_equal. lia.
Qed.
Lemma stops_length : forall g g' : list nat,
  List.length (map (fun p => Nat.max (fst p) (snd p)) (combine g g')) = Nat.min (List.length g) (List.length g').
Proof. intros. rewrite map_length, combine_length. reflexivity. Qed.

Lemma slice_all : forall g g' k, (k <= List.length g)%nat -> (k <= List.length g')%nat ->
  forall s, s = firstn k (map (fun p => Nat.max (fst p) (snd p)) (combine g g')) ->
  map (fun p => Nat.min (fst p) (snd p)) (combine s g) = firstn k g.
Proof.
  induction g as [|n g IH]; intros [|m g'] [|k] H K s ->; cbn [List.length] in *; try lia; try reflexivity.
  cbn [combine map firstn fst snd]. f_equal; [lia|]. apply (IH g' k); try lia. reflexivity.
Qed.

Lemma head_slice_max : forall a g',
  head_slice (map (fun p => Nat.max (fst p) (snd p)) (combine (a_shape a) g')) a
  = Ret (mkArr (a_shape a) (a_val a)).
Proof.
  intros a g'. unfold head_slice. rewrite stops_length.
  destruct (Nat.ltb_spec (List.length (a_shape a)) (Nat.min (List.length (a_shape a)) (List.length g'))); [lia|].
  do 2 f_equal.
  rewrite (slice_all (a_shape a) g' (Nat.min (List.length (a_shape a)) (List.length g'))); try lia.
  - apply firstn_skipn.
  - symmetry. apply firstn_all2. rewrite stops_length. lia.
Qed.
Lemma combine_max_comm : forall g g' : list nat,
  map (fun p => Nat.max (fst p) (snd p)) (combine g g') = map (fun p => Nat.max (fst p) (snd p)) (combine g' g).
Proof.
  induction g as [|n g IH]; intros [|m g']; try reflexivity. cbn [combine map fst snd].
  rewrite IH. f_equal. lia.
Qed.

Lemma mean_err_plain : forall a b, mean_err a b false =
  if negb (shape_eqb (a_shape a) (a_shape b)) then Exc GenericExc
  else bind (binop Rminus (mkArr (a_shape a) (a_val a)) (mkArr (a_shape b) (a_val b))) (fun d =>
       Ret (asum (amap Rabs d) / INR (size (a_shape d)))).
Proof.
  intros a b. unfold mean_err. rewrite head_slice_max. cbn [bind].
  rewrite combine_max_comm, head_slice_max. cbn [bind a_shape]. reflexivity.
Qed.

Lemma compute_wavevectors_tuple : forall ns Ls dims, dims <> 1%nat ->
  compute_wavevectors (Tuple ns) (Tuple Ls) dims = wavevectors ns Ls dims.
Proof.
  intros ns Ls dims H. unfold compute_wavevectors. destruct (Nat.eqb_spec dims 1); [contradiction|].
  destruct ns; reflexivity.
Qed.
