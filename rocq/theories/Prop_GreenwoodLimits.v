(** * C104 The limits of the asymptotic formulas of Greenwood and Tripp *)
From Coq Require Import Reals Lia Lra Bool.
From Coquelicot Require Import Coquelicot.
From Verif Require Import Py GreenwoodTripp_Model GreenwoodTripp_Elliptic GreenwoodTripp_Kernel GreenwoodLimits_Model.
From Coq Require Import List.
Import ListNotations.
Local Open Scope R_scope.

(** The documented formula, with the complete elliptic integrals of the modulus. *)
Definition int_E (k : R) : R := RInt (fun t => sqrt (1 - k ^ 2 * sin t ^ 2)) 0 (PI / 2).
Definition int_K (k : R) : R := RInt (fun t => / sqrt (1 - k ^ 2 * sin t ^ 2)) 0 (PI / 2).
Definition documented (x : R) : R :=
  if Rlt_dec x 1 then 2 / PI * (int_E x + (x ^ 2 - 1) * int_K x) else 2 / PI * (x * int_E (1 / x)).

Lemma below_iff : forall x y, below x y = true <-> x < y.
Proof. intros x y. unfold below. destruct (Rlt_dec x y); split; intros; try assumption; try reflexivity; try discriminate; tauto. Qed.
Lemma doc_in : forall x, x < 1 -> documented x = 2 / PI * ell_B x.
Proof. intros x H. unfold documented. destruct (Rlt_dec x 1); [reflexivity|lra]. Qed.
Lemma doc_out : forall x, 1 <= x -> documented x = 2 / PI * (x * ellipe (1 / x ^ 2)).
Proof.
  intros x H. unfold documented. destruct (Rlt_dec x 1); [lra|]. do 2 f_equal. unfold int_E, ellipe.
  replace (1 / x ^ 2) with ((1 / x) ^ 2) by (field; lra). reflexivity.
Qed.

(** The cases. *)
Lemma s_cases : forall a b x,
  (a <= x \/ 1 <= x) -> (x < 1 \/ x <= b) -> s_at a b x = documented x.
Proof.
  intros a b x H1 H2. unfold s_at, assign, below.
  destruct (Rlt_dec x 1) as [L|L].
  - rewrite (doc_in x L). destruct (Rlt_dec x a); [lra|]. reflexivity.
  - rewrite (doc_out x ltac:(lra)). destruct (Rlt_dec b x); [lra|]. cbn [negb andb]. ring.
Qed.
Lemma s_low : forall a b x, x < 1 -> x < a -> x <= b -> s_at a b x = x ^ 2 / 2.
Proof.
  intros a b x H1 H2 H3. unfold s_at, assign, below. destruct (Rlt_dec x 1); [|lra]. destruct (Rlt_dec x a); [|lra].
  destruct (Rlt_dec b x); [lra|]. reflexivity.
Qed.
Lemma s_high : forall a b x, b < x -> 1 <= x \/ x < a -> s_at a b x = x.
Proof.
  intros a b x H1 H2. unfold s_at, assign, below. destruct (Rlt_dec b x); [|lra]. destruct (Rlt_dec x 1) as [L|L].
  - destruct (Rlt_dec x a); [|lra]. reflexivity.
  - reflexivity.
Qed.

(** ** Bounds of the documented function *)
Lemma doc_small : forall x, 0 <= x < 1 -> x ^ 2 / 2 <= documented x /\ documented x * sqrt (1 - x ^ 2) <= x ^ 2 / 2.
Proof.
  intros x H. rewrite (doc_in x) by lra. pose proof PI_RGT_0 as P. pose proof q_pos as Q. assert (H1 : x ^ 2 < 1) by nra.
  pose proof (B_lower x H1) as B. apply (Rmult_le_compat_l (2 / PI)) in B; [|lra].
  replace (2 / PI * (x ^ 2 * (PI / 4))) with (x ^ 2 / 2) in B by (field; lra).
  pose proof (B_near x H1) as N. apply (Rmult_le_compat_l (2 / PI)) in N; [|lra].
  replace (2 / PI * (x ^ 2 * (PI / 4))) with (x ^ 2 / 2) in N by (field; lra). rewrite <- Rmult_assoc in N. split; assumption.
Qed.
Lemma doc_large : forall x, 1 <= x -> sqrt (x ^ 2 - 1) <= documented x <= x.
Proof.
  intros x H. rewrite (doc_out x H). pose proof PI_RGT_0 as P. pose proof q_pos as Q. destruct (E_bounds x H) as [B1 B2].
  apply (Rmult_le_compat_l (2 / PI)) in B1; [|lra]. apply (Rmult_le_compat_l (2 / PI)) in B2; [|lra].
  replace (2 / PI * (sqrt (x ^ 2 - 1) * (PI / 2))) with (sqrt (x ^ 2 - 1)) in B1 by (field; lra).
  replace (2 / PI * (x * (PI / 2))) with x in B2 by (field; lra). split; assumption.
Qed.
Lemma doc_top : forall x, 0 < x < 1 -> documented x < 2 / PI * x ^ 2.
Proof.
  intros x H. rewrite (doc_in x) by lra. apply Rmult_lt_compat_l; [exact q_pos|]. apply B_upper. exact H.
Qed.
Lemma two_pi : 1 / 2 <= 2 / PI < 1.
Proof.
  pose proof PI_RGT_0 as P. pose proof PI_4 as P4. pose proof PI2_1 as P1. split.
  - apply (Rmult_le_reg_r PI); [lra|]. replace (2 / PI * PI) with 2 by (field; lra). lra.
  - apply (Rmult_lt_reg_r PI); [lra|]. replace (2 / PI * PI) with 2 by (field; lra). lra.
Qed.
Lemma doc_mono : forall x y, 0 <= x -> x < y -> documented x < documented y.
Proof.
  intros x y Hx H. pose proof q_pos as Q. pose proof two_pi as T.
  assert (T3 : forall v, 1 <= v -> 2 / PI <= documented v).
  { intros v H1. rewrite (doc_out v H1). rewrite <- (Rmult_1_r (2 / PI)) at 1. apply Rmult_le_compat_l; [lra|].
    destruct H1 as [H1|H1]; [|subst v; rewrite E_one; lra]. rewrite <- E_one at 1. left. apply E_incr; lra. }
  destruct (Rlt_le_dec y 1) as [Y|Y].
  - rewrite !doc_in by lra. apply Rmult_lt_compat_l; [exact Q|]. apply B_incr; lra.
  - destruct (Rlt_le_dec x 1) as [X|X].
    + apply Rlt_le_trans with (2 / PI); [|apply T3; exact Y]. destruct Hx as [Hx|Hx].
      * eapply Rlt_le_trans; [apply doc_top; lra|]. rewrite <- (Rmult_1_r (2 / PI)) at 2. apply Rmult_le_compat_l; [lra|nra].
      * subst x. destruct (doc_small 0 ltac:(lra)) as [_ D]. replace (1 - 0 ^ 2) with 1 in D by ring. rewrite sqrt_1 in D. lra.
    + rewrite !doc_out by lra. apply Rmult_lt_compat_l; [exact Q|]. apply E_incr; lra.
Qed.

(** ** The default limits *)
Theorem C104_default : forall x, s_at (/ 10 ^ 5) (10 ^ 5) x = s_fun x.
Proof.
  intros x. pose proof s1e5_val as V. fold s1e5. destruct (Rlt_le_dec x s1e5) as [H|H].
  - rewrite s_small by exact H. apply s_low; lra.
  - destruct (Rlt_le_dec x 1) as [H1|H1].
    + rewrite s_mid by lra. rewrite <- doc_in by lra. apply s_cases; lra.
    + destruct (Rlt_le_dec (10 ^ 5) x) as [H2|H2].
      * rewrite s_large by exact H2. apply s_high; lra.
      * rewrite s_out by lra. rewrite <- doc_out by lra. apply s_cases; lra.
Qed.
Print Assumptions C104_default.

(** ** Accuracy: limits [xi1], [xi2] with [xi2] not below 1.  Between the limits the
    documented formula; beyond them the error relative to the value is below the
    square of the argument, or of its inverse. *)
Theorem C104_accuracy : forall xi1 xi2 x, 1 <= xi2 -> 0 <= x ->
  (xi1 <= x <= xi2 -> s_at xi1 xi2 x = documented x)
  /\ (x < xi1 -> x <= 3 / 4 -> Rabs (s_at xi1 xi2 x - documented x) <= x ^ 2 * s_at xi1 xi2 x)
  /\ (xi2 < x -> Rabs (s_at xi1 xi2 x - documented x) <= (1 / x) ^ 2 * s_at xi1 xi2 x).
Proof.
  intros a b x B X. split; [|split].
  - intros H. apply s_cases; lra.
  - intros H L. rewrite s_low by lra. destruct (doc_small x ltac:(lra)) as [D1 D2].
    set (b' := documented x) in *. assert (E : sqrt (1 - x ^ 2) ^ 2 = 1 - x ^ 2) by (apply pow2_sqrt; nra).
    pose proof (sqrt_lt_R0 (1 - x ^ 2) ltac:(nra)) as Q1. set (v := sqrt (1 - x ^ 2)) in *.
    assert (Y : x ^ 2 <= 9 / 16) by nra. assert (Y0 : 0 <= x ^ 2) by nra. set (y := x ^ 2) in *.
    assert (Vb : 1 <= v * (1 + y)).
    { assert (1 <= (v * (1 + y)) ^ 2); [|assert (0 <= v * (1 + y)) by (apply Rmult_le_pos; lra); set (w := v * (1 + y)) in *; clear - H0 H1; nra]. rewrite Rpow_mult_distr, E.
      replace ((1 - y) * (1 + y) ^ 2) with (1 + y * (1 - y - y * y)) by ring. assert (y * y <= 81 / 256) by nra.
      assert (0 <= y * (1 - y - y * y)) by (apply Rmult_le_pos; lra). lra. }
    assert (U : b' <= y / 2 * (1 + y)).
    { assert (b' <= b' * (v * (1 + y))) by nra. assert (0 <= 1 + y) by lra. nra. }
    rewrite Rabs_left1 by lra. nra.
  - intros H. rewrite s_high by lra. destruct (doc_large x ltac:(lra)) as [D1 D2]. set (b' := documented x) in *.
    rewrite Rabs_right by lra. replace ((1 / x) ^ 2 * x) with (1 / x) by (field; lra).
    assert (E : sqrt (x ^ 2 - 1) ^ 2 = x ^ 2 - 1) by (apply pow2_sqrt; nra).
    pose proof (sqrt_pos (x ^ 2 - 1)) as Q1. set (v := sqrt (x ^ 2 - 1)) in *.
    assert (VX : v <= x) by nra.
    assert (D : (x - v) * x <= 1) by nra. apply Rle_trans with (x - v); [lra|].
    apply (Rmult_le_reg_r x); [lra|]. replace (1 / x * x) with 1 by (field; lra). exact D.
Qed.
Print Assumptions C104_accuracy.

(** ** [s] as a variable of integration: strictly increasing, whatever the limits,
    unless [xi2 < xi1 < 1]. *)
Theorem C104_increasing : forall xi1 xi2, ~ (xi2 < xi1 < 1 /\ 0 < xi1) ->
  forall x y, 0 <= x -> x < y -> s_at xi1 xi2 x < s_at xi1 xi2 y.
Proof.
  intros a b NB x y X H. pose proof two_pi as T.
  assert (Sq : forall z, 0 <= z < 1 -> z ^ 2 / 2 <= documented z) by (intros z Hz; apply doc_small; exact Hz).
  assert (Top : forall z, 1 <= z -> documented z <= z) by (intros z Hz; apply doc_large; exact Hz).
  assert (Bot : forall z, 1 <= z -> 2 / PI <= documented z).
  { intros z Hz. destruct Hz as [Hz|Hz].
    - assert (D1 : documented 1 = 2 / PI) by (rewrite doc_out, E_one by lra; ring). rewrite <- D1. left. apply doc_mono; lra.
    - subst z. rewrite doc_out, E_one by lra. lra. }
  assert (In1 : forall z, 0 <= z < 1 -> documented z < 2 / PI).
  { intros z Hz. assert (D1 : documented 1 = 2 / PI) by (rewrite doc_out, E_one by lra; ring). rewrite <- D1. apply doc_mono; lra. }
  destruct (Rlt_le_dec y 1) as [Y|Y].
  - destruct (Rlt_le_dec y a) as [YA|YA].
    + destruct (Rlt_le_dec b y) as [YB|YB].
      * rewrite (s_high a b y) by lra. destruct (Rlt_le_dec b x) as [XB|XB]; [rewrite s_high by lra; exact H|rewrite s_low by lra; nra].
      * rewrite !s_low by lra. nra.
    + rewrite (s_cases a b y) by lra. destruct (Rlt_le_dec x a) as [XA|XA].
      * destruct (Rlt_le_dec b x) as [XB|XB]; [exfalso; apply NB; lra|]. rewrite s_low by lra.
        eapply Rlt_le_trans; [|apply Sq; lra]. nra.
      * rewrite s_cases by lra. apply doc_mono; lra.
  - assert (UX : x < 1 -> s_at a b x < 2 / PI \/ (b < x < a /\ s_at a b x = x)).
    { intros X1. destruct (Rlt_le_dec x a) as [XA|XA].
      - destruct (Rlt_le_dec b x) as [XB|XB]; [right; split; [lra|apply s_high; lra]|]. left. rewrite s_low by lra. nra.
      - left. rewrite s_cases by lra. apply In1. lra. }
    destruct (Rlt_le_dec b y) as [YB|YB].
    + rewrite (s_high a b y) by lra. destruct (Rlt_le_dec x 1) as [X1|X1].
      * destruct (UX X1) as [U|[_ U]]; lra.
      * destruct (Rlt_le_dec b x) as [XB|XB]; [rewrite s_high by lra; exact H|]. rewrite s_cases by lra. specialize (Top x X1). lra.
    + rewrite (s_cases a b y) by lra. destruct (Rlt_le_dec x 1) as [X1|X1].
      * destruct (UX X1) as [U|[U _]]; [specialize (Bot y Y); lra|lra].
      * rewrite s_cases by lra. apply doc_mono; lra.
Qed.
Print Assumptions C104_increasing.
Theorem C104_crossed : forall xi1 xi2, xi2 < xi1 < 1 -> 0 < xi1 ->
  exists x y, 0 <= x /\ x < y /\ s_at xi1 xi2 y < s_at xi1 xi2 x.
Proof.
  intros a b H P. pose proof two_pi as T. pose proof (doc_top a ltac:(lra)) as D.
  assert (D2 : documented a < a). { assert (2 / PI * a ^ 2 < a) by nra. lra. }
  destruct (doc_small a ltac:(lra)) as [D0 _]. assert (D1 : 0 <= documented a) by nra.
  exists ((Rmax b (documented a) + a) / 2), a. pose proof (Rmax_l b (documented a)) as M1. pose proof (Rmax_r b (documented a)) as M2.
  assert (M3 : Rmax b (documented a) < a) by (apply Rmax_lub_lt; lra). set (z := Rmax b (documented a)) in *.
  split; [lra|]. split; [lra|]. rewrite (s_cases a b a) by lra. rewrite s_high by lra. lra.
Qed.
Print Assumptions C104_crossed.

(** ** The inverse: fails exactly if an element lies between the limits; elsewhere it
    is the inverse where the asymptotic formulas of [s] are used. *)
Theorem C104_inverse : forall s1 s2 l,
  (xi_at s1 s2 l = Exc TypeErr <-> exists x, In x l /\ s1 <= x <= s2)
  /\ (forall e, xi_at s1 s2 l = Exc e -> e = TypeErr)
  /\ (forall xi1 xi2 ys, xi_at s1 s2 l = Ret ys -> 0 <= xi1 <= 1 -> 1 <= xi2 ->
       (forall x, In x l -> (0 <= x < xi1 ^ 2 / 2 /\ x <= s2) \/ (xi2 < x /\ s2 < x)) ->
       map (s_at xi1 xi2) ys = l /\ forall y, In y ys -> 0 <= y).
Proof.
  intros s1 s2 l. unfold xi_at. set (m2 := fun x => andb (negb (below x s1)) (negb (below s2 x))).
  assert (ME : existsb m2 l = true <-> exists x, In x l /\ s1 <= x <= s2).
  { rewrite existsb_exists. split; intros (x & I & Q); exists x; (split; [exact I|]); unfold m2, below in *.
    - destruct (Rlt_dec x s1), (Rlt_dec s2 x); try discriminate. lra.
    - destruct (Rlt_dec x s1), (Rlt_dec s2 x); (reflexivity || lra). }
  split; [|split].
  - rewrite <- ME. destruct (existsb m2 l); split; intros Q; try reflexivity; discriminate.
  - intros e. destruct (existsb m2 l); intros Q; [injection Q as <-; reflexivity|discriminate].
  - intros a b ys. destruct (existsb m2 l) eqn:EX; [discriminate|]. intros Q A B V. injection Q as <-.
    assert (NM : forall x, In x l -> ~ s1 <= x <= s2).
    { intros x I K. assert (false = true) by (apply ME; exists x; split; assumption). discriminate. }
    assert (VAL : forall x, In x l -> let y := assign (below s2 x) x (assign (below x s1) (sqrt (2 * x)) 0) in s_at a b y = x /\ 0 <= y).
    { intros x I y. specialize (V x I). specialize (NM x I). unfold assign, below in y. destruct V as [[V1 V2]|[V1 V2]].
      - destruct (Rlt_dec s2 x); [lra|]. destruct (Rlt_dec x s1); [|lra]. subst y. pose proof (sqrt_pos (2 * x)) as SP.
        assert (SS : sqrt (2 * x) ^ 2 = 2 * x) by (apply pow2_sqrt; lra).
        assert (SA : sqrt (2 * x) < a) by nra. split; [|exact SP]. rewrite s_low by lra. rewrite SS. field.
      - destruct (Rlt_dec s2 x); [|lra]. subst y. split; [|lra]. apply s_high; lra. }
    split.
    + rewrite map_map. rewrite <- (map_id l) at 2. apply map_ext_in. intros x I. apply (VAL x I).
    + intros y I. apply in_map_iff in I. destruct I as (x & <- & I). apply (VAL x I).
Qed.
Print Assumptions C104_inverse.

(** Limits that meet the hypotheses, with an argument in each range; crossed limits;
    an inverse that works and one that fails. *)
Example C104_nonvacuous :
  (1 <= 100 /\ 1 / 2 <= 1 <= 100 /\ (1 / 4 < 1 / 2 /\ 1 / 4 <= 3 / 4) /\ 100 < 200)
  /\ ~ (100 < 1 / 2 < 1 /\ 0 < 1 / 2) /\ (1 / 4 < 1 / 2 < 1 /\ 0 < 1 / 2)
  /\ xi_at (1 / 100) 1000 [1 / 200; 2000] = Ret [sqrt (2 * (1 / 200)); 2000]
  /\ (forall x, In x [1 / 200; 2000] -> (0 <= x < (1 / 2) ^ 2 / 2 /\ x <= 1000) \/ (100 < x /\ 1000 < x))
  /\ xi_at (1 / 100) 1000 [1 / 200; 1] = Exc TypeErr.
Proof.
  split; [lra|]. split; [lra|]. split; [lra|].
  assert (B1 : below (1 / 200) (1 / 100) = true) by (apply below_iff; lra).
  assert (B2 : below 1000 2000 = true) by (apply below_iff; lra).
  assert (B3 : below 1000 (1 / 200) = false) by (unfold below; destruct (Rlt_dec _ _); [lra|reflexivity]).
  split; [|split].
  - unfold xi_at. cbn [existsb map]. rewrite B1, B2, B3. cbn [negb andb orb]. rewrite andb_false_r. reflexivity.
  - intros x [<-|[<-|[]]]; [left|right]; lra.
  - apply C104_inverse. exists 1. split; [right; left; reflexivity|lra].
Qed.
