(** * The laws of Float_Spec.v hold for IEEE 754 binary64

    The operations are those of Coq's [SpecFloat] (round to nearest even,
    signed zeros, subnormal numbers, infinities, one nan); no axiom is involved. *)
From Coq Require Import List Bool ZArith Lia Permutation.
From Coq Require Import Floats.SpecFloat.
From Verif Require Import Float_Model Float_Spec.
Import ListNotations.

Definition F64 := spec_float.
Definition f64_of (m e : Z) : F64 := binary_normalize 53 1024 m e false.
Definition nan64 : F64 := S754_nan.
Definition nan64b (x : F64) : bool := match x with S754_nan => true | _ => false end.
Definition fin64 (x : F64) : Prop := match x with S754_zero _ | S754_finite _ _ _ => True | _ => False end.

(** [np.maximum], [np.minimum]: nan wins. *)
Definition max64 (x y : F64) : F64 :=
  if nan64b x then x else if nan64b y then y else if SFltb x y then y else x.
Definition min64 (x y : F64) : F64 :=
  if nan64b x then x else if nan64b y then y else if SFltb y x then y else x.

Definition A64 : Arith F64 :=
  mkArith F64 (S754_zero false) (f64_of 1 0) (SFdiv 53 1024 (f64_of 1 0) (f64_of 100 0))
    (SFadd 53 1024) (SFsub 53 1024) (SFmul 53 1024) (SFdiv 53 1024)
    SFopp SFabs (SFsqrt 53 1024) SFltb SFleb SFeqb
    (fun n => f64_of (Z.of_nat n) 0)
    (fold_right (SFadd 53 1024) (S754_zero false))
    (fold_right max64 (S754_infinity true))
    (fold_right min64 (S754_infinity false)).

(** ** Rounding keeps the sign *)
Definition signed64 (s : bool) (x : F64) : Prop :=
  match x with S754_zero s' | S754_infinity s' | S754_finite s' _ _ => s' = s | S754_nan => True end.
Lemma round_aux_sign : forall s m e l, signed64 s (binary_round_aux 53 1024 s m e l).
Proof.
  intros s m e l. unfold binary_round_aux.
  destruct (shr_fexp 53 1024 m e l) as [r e'].
  destruct (shr_fexp 53 1024 _ e' loc_Exact) as [r' e''].
  destruct (shr_m r') as [|p|p]; [exact eq_refl| |exact I].
  destruct (Z.leb e'' (1024 - 53)); exact eq_refl.
Qed.
Lemma round_sign : forall s m e, signed64 s (binary_round 53 1024 s m e).
Proof. intros s m e. unfold binary_round. destruct (shl_align m e _). apply round_aux_sign. Qed.

Lemma is_nan64 : forall x : F64, is_nan A64 x <-> x = S754_nan.
Proof.
  intros [s|s| |s m e]; unfold is_nan; cbn [aeq A64]; unfold SFeqb, SFcompare; split; intro H; try reflexivity;
    try discriminate; try (destruct s; discriminate).
  destruct s; rewrite Z.compare_refl, Pos.compare_cont_refl in H; discriminate.
Qed.

Definition pos64 (x : F64) : bool := match x with S754_infinity false | S754_finite false _ _ => true | _ => false end.
Definition neg64 (x : F64) : bool := match x with S754_infinity true | S754_finite true _ _ => true | _ => false end.
Lemma not_pos64 : forall x : F64, not_pos A64 x <-> pos64 x = false.
Proof. intros [s|s| |s m e]; unfold not_pos; cbn; try destruct s; cbn; split; congruence. Qed.
Lemma not_neg64 : forall x : F64, not_neg A64 x <-> neg64 x = false.
Proof. intros [s|s| |s m e]; unfold not_neg; cbn; try destruct s; cbn; split; congruence. Qed.
Lemma zero64 : forall x : F64, aeq A64 x (a0 A64) = true <-> exists s, x = S754_zero s.
Proof.
  intros [s|s| |s m e]; cbn; try destruct s; cbn; split; intro H; try discriminate; try (eexists; reflexivity); try reflexivity;
    destruct H as [? H]; discriminate.
Qed.

Lemma signed_pos : forall x, signed64 true x -> pos64 x = false.
Proof. intros [s|s| |s m e] H; cbn in *; try subst; reflexivity. Qed.
Lemma signed_neg : forall x, signed64 false x -> neg64 x = false.
Proof. intros [s|s| |s m e] H; cbn in *; try subst; reflexivity. Qed.

(** ** Order *)
Lemma cmp_finite : forall m1 e1 m2 e2,
  match Z.compare e1 e2 with Lt => Lt | Gt => Gt | Eq => Pos.compare_cont Eq m1 m2 end
  = match Z.compare e1 e2 with Lt => Lt | Gt => Gt | Eq => Pos.compare m1 m2 end.
Proof. reflexivity. Qed.

Ltac cmp :=
  repeat match goal with
  | |- context [Z.compare ?a ?b] => destruct (Z.compare_spec a b); subst
  | H : context [Z.compare ?a ?b] |- _ => destruct (Z.compare_spec a b); subst
  | |- context [Pos.compare_cont Eq ?a ?b] => change (Pos.compare_cont Eq a b) with (Pos.compare a b); destruct (Pos.compare_spec a b); subst
  | H : context [Pos.compare_cont Eq ?a ?b] |- _ => change (Pos.compare_cont Eq a b) with (Pos.compare a b) in H; destruct (Pos.compare_spec a b); subst
  end; cbn [CompOpp] in *; try discriminate; try reflexivity; try lia.

Lemma le_lt64 : forall x y z : F64, SFleb x y = true -> SFltb y z = true -> SFltb x z = true.
Proof.
  intros [s1|s1| |s1 m1 e1] [s2|s2| |s2 m2 e2] [s3|s3| |s3 m3 e3]; unfold SFleb, SFltb, SFcompare;
    try destruct s1; try destruct s2; try destruct s3; try discriminate; try reflexivity;
    intros H1 H2; cmp.
Qed.
Lemma total64 : forall x y : F64, x <> S754_nan -> y <> S754_nan -> SFltb x y = false -> SFleb y x = true.
Proof.
  intros [s1|s1| |s1 m1 e1] [s2|s2| |s2 m2 e2] X Y; try congruence; unfold SFleb, SFltb, SFcompare;
    try destruct s1; try destruct s2; try discriminate; try reflexivity;
    intros H1; cmp.
Qed.
Lemma irrefl64 : forall x : F64, SFltb x x = false.
Proof.
  intros [s1|s1| |s1 m1 e1]; unfold SFltb, SFcompare; try destruct s1; try reflexivity; cmp.
Qed.

Lemma opp_lt64 : forall x y : F64, SFltb x (SFopp y) = SFltb y (SFopp x).
Proof.
  intros [s1|s1| |s1 m1 e1] [s2|s2| |s2 m2 e2]; unfold SFltb, SFcompare, SFopp;
    try destruct s1; try destruct s2; cbn [negb]; try reflexivity; cmp.
Qed.

(** ** Reductions *)
Lemma sum64 : forall l, summed A64 l (fold_right (SFadd 53 1024) (S754_zero false) l).
Proof.
  induction l as [|x l IH]; [exact (summed_nil A64)|].
  exact (summed_app A64 [x] l x _ (summed_one A64 x) IH).
Qed.
Lemma max_nan64 : forall l x, In x l -> x = S754_nan -> fold_right max64 (S754_infinity true) l = S754_nan.
Proof.
  induction l as [|y l IH]; intros x I N; [destruct I|]. cbn [fold_right]. destruct I as [->|I].
  - subst x. reflexivity.
  - rewrite (IH x I N). unfold max64. destruct y; reflexivity.
Qed.
Lemma max_some64 : forall l, (forall x, In x l -> x <> S754_nan) -> fold_right max64 (S754_infinity true) l <> S754_nan.
Proof.
  induction l as [|y l IH]; intros H; [discriminate|]. cbn [fold_right].
  assert (Y : y <> S754_nan) by (apply H; left; reflexivity).
  assert (M : fold_right max64 (S754_infinity true) l <> S754_nan) by (apply IH; intros x I; apply H; right; exact I).
  unfold max64 at 1. destruct (nan64b y); [exact Y|]. destruct (nan64b _); [exact M|]. destruct (SFltb _ _); assumption.
Qed.
Lemma le_refl64 : forall x, x <> S754_nan -> SFleb x x = true.
Proof. intros x N. apply total64; [exact N|exact N|apply irrefl64]. Qed.
Lemma max_above64 : forall l x, In x l -> fold_right max64 (S754_infinity true) l <> S754_nan ->
  SFleb x (fold_right max64 (S754_infinity true) l) = true.
Proof.
  induction l as [|y l IH]; intros x I N; [destruct I|]. cbn [fold_right] in *.
  set (m := fold_right max64 (S754_infinity true) l) in *.
  assert (Y : y <> S754_nan) by (intro E; subst y; apply N; reflexivity).
  assert (M : m <> S754_nan) by (intro E; rewrite E in N; apply N; unfold max64; destruct y; reflexivity).
  unfold max64. replace (nan64b y) with false by (destruct y; [reflexivity..|congruence|reflexivity]).
  replace (nan64b m) with false by (destruct m; [reflexivity..|congruence|reflexivity]).
  destruct (SFltb y m) eqn:E; destruct I as [->|I].
  - clear - E. revert E. unfold SFltb, SFleb. destruct (SFcompare x m) as [[]|]; congruence.
  - apply IH; assumption.
  - apply le_refl64. exact Y.
  - assert (MY : SFleb m y = true) by (apply total64; assumption).
    specialize (IH x I M). assert (X : x <> S754_nan) by (intro Q; subst x; destruct m; discriminate).
    apply total64; [exact Y|exact X|]. destruct (SFltb y x) eqn:Q; [|reflexivity].
    pose proof (le_lt64 _ _ _ MY Q) as Z1. pose proof (le_lt64 _ _ _ IH Z1) as Z2.
    rewrite irrefl64 in Z2. discriminate.
Qed.

Lemma norm_sign_neg : forall a b e, signed64 true (binary_normalize 53 1024 (Z.neg a + Z.neg b) e false).
Proof. intros a b e. cbn [Z.add binary_normalize]. apply round_sign. Qed.
Lemma nat_sign : forall n, signed64 false (f64_of (Z.of_nat n) 0).
Proof.
  intros n. unfold f64_of. destruct (Z.of_nat n) eqn:E; [reflexivity|apply round_sign|lia].
Qed.

Theorem binary64_laws : laws A64 fin64.
Proof.
  split; cbn [a0 a1 aadd asub amul adiv aopp aabs asqrt alt ale aeq anat asum amax amin A64].
  - exact I.
  - intros [s|s| |s m e]; cbn; auto.
  - intros x H E. apply is_nan64 in E. subst x. exact H.
  - intros x y H. rewrite !is_nan64. destruct x, y; try discriminate; split; discriminate.
  - intros x y H. rewrite !is_nan64. destruct x, y; try discriminate; split; discriminate.
  - intros x y H. rewrite !is_nan64. destruct x, y; try discriminate; split; discriminate.
  - intros x y. rewrite !is_nan64. intros [->| ->]; [reflexivity|destruct x; reflexivity].
  - intros x y. rewrite !is_nan64. intros [->| ->]; [reflexivity|destruct x; reflexivity].
  - intros x y. rewrite !is_nan64. intros [->| ->]; [reflexivity|destruct x; reflexivity].
  - intros x y. rewrite !is_nan64. intros [->| ->]; [reflexivity|destruct x; reflexivity].
  - intros x. rewrite !is_nan64. intros ->. reflexivity.
  - intros x. rewrite !is_nan64. intros ->. reflexivity.
  - intros x. rewrite !is_nan64. intros ->. reflexivity.
  - intros [s|s| |s m e] [s'|s'| |s' m' e']; cbn [fin64 SFadd]; try tauto; try (destruct (Bool.eqb s s'); cbn; tauto).
  - intros [s|s| |s m e] [s'|s'| |s' m' e']; cbn [fin64 SFsub]; try tauto; try (destruct (Bool.eqb s (negb s')); cbn; tauto).
  - intros [s|s| |s m e] [s'|s'| |s' m' e']; cbn [fin64 SFmul]; tauto.
  - intros [s|s| |s m e]; cbn; tauto.
  - intros [s|s| |s m e] H; rewrite is_nan64; cbn in *; tauto.
  - intros [s|s| |s m e] [s'|s'| |s' m' e'] H H'; rewrite is_nan64; cbn in *; tauto.
  - intros [s|s| |s m e] y; cbn [fin64 SFabs]; try tauto; [|discriminate]. destruct y as [s'|[|]| |[|] m' e']; discriminate.
  - intros x y. unfold SFltb, SFleb. destruct (SFcompare x y) as [[]|]; congruence.
  - exact irrefl64.
  - intros x y. rewrite !is_nan64. apply total64.
  - exact le_lt64.
  - intros x y X Y. apply zero64 in X, Y. destruct X as [s ->], Y as [s' ->]. reflexivity.
  - intros x X. apply zero64 in X. destruct X as [s ->]. reflexivity.
  - reflexivity.
  - intros x y X Y. apply zero64 in X, Y. destruct X as [s ->], Y as [s' ->]. destruct s, s'; reflexivity.
  - intros x y X Y. apply zero64 in X, Y. destruct X as [s ->], Y as [s' ->]. destruct s, s'; reflexivity.
  - intros x y H. rewrite is_nan64. destruct H as [H|H]; apply zero64 in H; destruct H as [s ->];
      [destruct y|destruct x]; cbn; auto.
  - intros x X. apply zero64 in X. destruct X as [s ->]. reflexivity.
  - intros [s|s| |s m e] H; rewrite is_nan64; cbn in *; try tauto; discriminate.
  - apply opp_lt64.
  - intros x y X Y. apply zero64 in X. destruct X as [s ->]. destruct y as [s'|[|]| |[|] m' e']; cbn in *; congruence.
  - intros x. rewrite not_pos64, not_neg64. destruct x as [s|[|]| |[|] m e]; cbn; congruence.
  - intros x. rewrite not_pos64, not_neg64. destruct x as [s|[|]| |[|] m e]; cbn; congruence.
  - intros x y. rewrite !not_pos64. intros X Y.
    destruct x as [s|[|]| |[|] m e], y as [s'|[|]| |[|] m' e']; try discriminate; try reflexivity;
      try (destruct s; reflexivity); try (destruct s, s'; reflexivity).
    apply signed_pos. cbn [SFadd cond_Zopp Z.opp]. apply norm_sign_neg.
  - intros x y. rewrite !not_pos64, not_neg64. intros X Y.
    destruct x as [s|[|]| |[|] m e], y as [s'|[|]| |[|] m' e']; try discriminate; try reflexivity.
    apply signed_pos. cbn [SFmul xorb]. apply round_aux_sign.
  - intros x y. rewrite !not_neg64. intros X Y Z.
    destruct x as [s|[|]| |[|] m e], y as [s'|[|]| |[|] m' e']; try discriminate; try reflexivity.
    apply signed_neg. cbn [SFdiv xorb]. destruct (SFdiv_core_binary 53 1024 _ _ _ _) as [[q e''] l]. apply round_aux_sign.
  - intros x n. rewrite !not_pos64. intros X. pose proof (nat_sign n) as S.
    destruct (f64_of (Z.of_nat n) 0) as [s'|s'| |s' m' e']; cbn [signed64] in S; try subst s';
    destruct x as [s|[|]| |[|] m e]; try discriminate; try reflexivity.
    apply signed_pos. cbn [SFdiv xorb]. destruct (SFdiv_core_binary 53 1024 _ _ _ _) as [[q e''] l]. apply round_aux_sign.
  - exact sum64.
  - intros l x I. rewrite !is_nan64. apply max_nan64. exact I.
  - intros l H. rewrite is_nan64. apply max_some64. intros x I. rewrite <- is_nan64. apply H, I.
  - intros l x I. rewrite is_nan64. apply max_above64. exact I.
Qed.
Print Assumptions binary64_laws.
