(** * C61: the Greenwood-Tripp solution *)

From Coq Require Import Reals ZArith Lra Lia Psatz.
From Coquelicot Require Import Coquelicot.
From Verif Require Import Py Hertz_Model Calc GreenwoodTripp_Model GreenwoodTripp_Spec GreenwoodTripp_Elliptic
  GreenwoodTripp_Kernel GreenwoodTripp_Proofs.
From Coq Require Import List.
Import ListNotations.
Local Open Scope R_scope.

(** ** The iteration

    [iter_p], [iter_w]: the damped fixed-point iteration of
    GreenwoodTripp_Spec.v.  The call returns exactly when one of the first
    [maxiter + 1] iterates has settled, then it returns the displacements of
    the first such iterate and the pressures that belong to them. *)
Theorem C61_iteration : forall quad simpson d mu rhomax eps tol mix n maxiter,
  (2 <= n)%nat -> 0 < rhomax -> 0 <= eps <= rhomax ->
  let F := fun h => quad (fun s => fpow (s - h) (3 / 2) * (exp (- s ^ 2 / 2) / fpow (2 * PI) (1 / 2))) h in
  let Settled := settled F s_fun simpson d mu rhomax eps tol mix n in
  let W := iter_w F s_fun simpson d mu rhomax eps mix n in
  (forall w p r, greenwood_tripp quad simpson d mu rhomax eps tol mix n maxiter = Ret (w, p, r) <->
     exists K, (K <= Z.to_nat (maxiter + 1))%nat /\ Settled K /\ (forall i, (i < K)%nat -> ~ Settled i) /\
       length w = n /\ length p = n /\ length r = n /\
       forall i, (i < n)%nat ->
         nth i r 0 = INR i * (rhomax / INR (n - 1)) /\
         nth i w 0 = W K i /\
         nth i p 0 = mu * F (d + nth i r 0 ^ 2 + nth i w 0)) /\
  (greenwood_tripp quad simpson d mu rhomax eps tol mix n maxiter = Exc RuntimeErr <->
     forall K, (K <= Z.to_nat (maxiter + 1))%nat -> ~ Settled K).
Proof.
  intros quad simpson d mu rhomax eps tol mix n maxiter Hn Hr He F Settled W.
  assert (NTH : forall q i, (i < n)%nat -> nth i (arr n q) 0 = q i) by (intros q i Hi; apply arr_nth; exact Hi).
  pose proof (gt_result quad simpson d mu rhomax eps tol mix n Hn Hr He maxiter) as G.
  change (Fn quad) with F in G. fold Settled in G. fold W in G.
  destruct G as [[K [K1 [K2 [K3 K4]]]]|[K1 K2]].
  - assert (UN : forall K', Settled K' -> (forall i, (i < K')%nat -> ~ Settled i) -> K' = K).
    { intros K' H1 H2. destruct (lt_eq_lt_dec K' K) as [[L|L]|L]; [exfalso; exact (K3 _ L H1)|exact L|exfalso; exact (H2 _ L K2)]. }
    rewrite K4. split.
    + intros w p r. split.
      * intros E. injection E as E1 E2 E3. subst w p r. exists K. rewrite !arr_length.
        split; [exact K1|]. split; [exact K2|]. split; [exact K3|]. do 3 (split; [reflexivity|]).
        intros i Hi. rewrite !NTH by exact Hi. split; [reflexivity|]. split; reflexivity.
      * intros [K' [H1 [H2 [H3 [L1 [L2 [L3 H4]]]]]]]. rewrite (UN K' H2 H3) in H4. clear K' H1 H2 H3.
        f_equal. f_equal; [f_equal|].
        -- apply (nth_ext _ _ 0 0); [rewrite arr_length; symmetry; exact L1|]. intros i Hi. rewrite arr_length in Hi.
           rewrite NTH by exact Hi. destruct (H4 i Hi) as [_ [X _]]. symmetry. exact X.
        -- apply (nth_ext _ _ 0 0); [rewrite arr_length; symmetry; exact L2|]. intros i Hi. rewrite arr_length in Hi.
           rewrite NTH by exact Hi. destruct (H4 i Hi) as [A [B X]]. rewrite X, A, B. reflexivity.
        -- apply (nth_ext _ _ 0 0); [rewrite arr_length; symmetry; exact L3|]. intros i Hi. rewrite arr_length in Hi.
           rewrite NTH by exact Hi. destruct (H4 i Hi) as [X _]. symmetry. exact X.
    + split; [intros E; discriminate E|]. intros H. exfalso. exact (H K K1 K2).
  - rewrite K2. split.
    + intros w p r. split; [intros E; discriminate E|]. intros [K [H1 [H2 _]]]. exfalso. exact (K1 K H1 H2).
    + split; [intros _; exact K1|reflexivity].
Qed.
Print Assumptions C61_iteration.

(** What a returned result solves: the pressures [p] are those of the
    displacements [w], the centre has no displacement, and [w] are the
    displacements under pressures [q] which differ by at most [tol] from
    pressures [q'] that fulfil the equation [q' = mu F(d + r^2 + w(q'))] up to
    [tol / mix].  A quadrature rule that integrates zeros to zero is needed
    for the first iterate. *)
Theorem C61_residual : forall quad simpson d mu rhomax eps tol mix n maxiter w p r,
  (2 <= n)%nat -> 0 < rhomax -> 0 <= eps <= rhomax -> 0 < mix -> tol < 1 ->
  (forall l x, (forall y, In y l -> y = 0) -> simpson l x = 0) ->
  greenwood_tripp quad simpson d mu rhomax eps tol mix n maxiter = Ret (w, p, r) ->
  let F := fun h => quad (fun s => fpow (s - h) (3 / 2) * (exp (- s ^ 2 / 2) / fpow (2 * PI) (1 / 2))) h in
  let w_of := displacement s_fun simpson rhomax eps n in
  nth 0 w 0 = 0 /\
  exists q q' : nat -> R,
    (forall i, (i < n)%nat -> nth i w 0 = w_of q i) /\
    (forall i, (i < n)%nat -> nth i p 0 = mu * F (d + nth i r 0 ^ 2 + nth i w 0)) /\
    (forall i, (i < n)%nat -> Rabs (q i - q' i) <= tol) /\
    (forall i, (i < n)%nat -> Rabs (mu * F (d + nth i r 0 ^ 2 + w_of q' i) - q' i) <= tol / mix).
Proof.
  intros quad simpson d mu rhomax eps tol mix n maxiter w p r Hn Hr He Hm Ht Hs E F w_of.
  destruct (proj1 (C61_iteration quad simpson d mu rhomax eps tol mix n maxiter Hn Hr He)) with (w := w) (p := p) (r := r) as [G _].
  destruct (G E) as [K [K1 [K2 [K3 [L1 [L2 [L3 H]]]]]]]. clear G.
  pose (P := iter_p F s_fun simpson d mu rhomax eps mix n). pose (W := iter_w F s_fun simpson d mu rhomax eps mix n).
  destruct K as [|K]; [cbn [settled] in K2; lra|].
  assert (WS : forall k, W k = w_of (P k)).
  { intros [|k].
    - unfold W, P, iter_w, iter_p. cbn [iterate fst snd]. apply FunctionalExtensionality.functional_extensionality. intros i.
      unfold w_of. destruct i as [|i]; [reflexivity|]. cbn [displacement]. rewrite !Hs; [ring| |].
      + intros y Hy. unfold arr in Hy. apply in_map_iff in Hy. destruct Hy as [j [X _]]. symmetry. exact X.
      + intros y Hy. unfold arr in Hy. apply in_map_iff in Hy. destruct Hy as [j [X _]]. rewrite <- X. unfold pl. ring.
    - apply (W_S quad simpson d mu rhomax eps mix n k). }
  assert (RD : forall i, (i < n)%nat -> nth i r 0 = radius rhomax n i) by (intros i Hi; apply (H i Hi)).
  split; [destruct (H 0%nat ltac:(lia)) as [_ [X _]]; rewrite X; fold W; rewrite WS; reflexivity|].
  exists (P (S K)), (P K). repeat split.
  - intros i Hi. destruct (H i Hi) as [_ [X _]]. rewrite X. fold W. rewrite WS. reflexivity.
  - intros i Hi. apply (H i Hi).
  - intros i Hi. exact (K2 i Hi).
  - intros i Hi. specialize (K2 i Hi).
    change (Rabs (P (S K) i - P K i) <= tol) in K2.
    pose proof (P_S quad simpson d mu rhomax eps mix n K i) as PS.
    change (P (S K) i = mix * asperity F d mu rhomax n (W K) i + (1 - mix) * P K i) in PS.
    rewrite PS in K2. rewrite RD by exact Hi. rewrite <- WS.
    replace (mix * asperity F d mu rhomax n (W K) i + (1 - mix) * P K i - P K i)
      with (mix * (asperity F d mu rhomax n (W K) i - P K i)) in K2 by ring.
    rewrite Rabs_mult, (Rabs_right mix) in K2 by lra.
    change (Rabs (asperity F d mu rhomax n (W K) i - P K i) <= tol / mix).
    apply (Rmult_le_reg_l mix); [exact Hm|]. replace (mix * (tol / mix)) with tol by (field; lra). exact K2.
Qed.
Print Assumptions C61_residual.

(** With a zero tolerance the result is an exact solution of the discrete
    equations. *)
Theorem C61_exact : forall quad simpson d mu rhomax eps mix n maxiter w p r,
  (2 <= n)%nat -> 0 < rhomax -> 0 <= eps <= rhomax -> 0 < mix ->
  (forall l x, (forall y, In y l -> y = 0) -> simpson l x = 0) ->
  greenwood_tripp quad simpson d mu rhomax eps 0 mix n maxiter = Ret (w, p, r) ->
  let F := fun h => quad (fun s => fpow (s - h) (3 / 2) * (exp (- s ^ 2 / 2) / fpow (2 * PI) (1 / 2))) h in
  exists q, (forall i, (i < n)%nat -> nth i p 0 = q i) /\
    (forall i, (i < n)%nat -> q i = mu * F (d + nth i r 0 ^ 2 + nth i w 0)) /\
    (forall i, (i < n)%nat -> nth i w 0 = displacement s_fun simpson rhomax eps n q i).
Proof.
  intros quad simpson d mu rhomax eps mix n maxiter w p r Hn Hr He Hm Hs E F.
  destruct (C61_residual quad simpson d mu rhomax eps 0 mix n maxiter w p r Hn Hr He Hm ltac:(lra) Hs E)
    as [_ [q [q' [A [B [D G]]]]]].
  assert (Q : forall i, (i < n)%nat -> q i = q' i).
  { intros i Hi. specialize (D i Hi). destruct (Req_dec (q i - q' i) 0) as [Z|Z]; [lra|].
    pose proof (Rabs_pos_lt _ Z). lra. }
  assert (AR : arr n q = arr n q').
  { unfold arr. apply map_ext_in. intros i Hi. apply in_seq in Hi. apply Q. lia. }
  assert (DQ : forall i, displacement s_fun simpson rhomax eps n q i = displacement s_fun simpson rhomax eps n q' i).
  { intros [|i]; [reflexivity|]. cbn [displacement]. rewrite AR. f_equal.
    f_equal. unfold arr. apply map_ext_in. intros j Hj. apply in_seq in Hj. f_equal.
    assert (RG : 0 <= radius rhomax n (S i) * knot rhomax eps n (S i) j <= rhomax).
    { rewrite knot_pos by (lia || assumption). pose proof (n1_pos n Hn) as N.
      assert (J : 0 <= INR j <= INR (n - 1)) by (split; [apply pos_INR|apply le_INR; lia]).
      assert (T : 0 <= (rhomax - eps) / INR (n - 1)) by (apply Rdiv_le_0_compat; lra).
      split; [apply Rmult_le_pos; lra|].
      apply Rle_trans with (INR (n - 1) * ((rhomax - eps) / INR (n - 1))); [apply Rmult_le_compat_r; lra|].
      replace (INR (n - 1) * ((rhomax - eps) / INR (n - 1))) with (rhomax - eps) by (field; lra). lra. }
    pose proof (interp1d_pl rhomax n Hn Hr q _ RG) as I1. pose proof (interp1d_pl rhomax n Hn Hr q' _ RG) as I2.
    rewrite AR in I1. rewrite I1 in I2. injection I2 as I2. exact I2. }
  assert (KEY : forall i, (i < n)%nat -> mu * F (d + nth i r 0 ^ 2 + nth i w 0) = q i).
  { intros i Hi. rewrite (A i Hi), DQ, (Q i Hi). specialize (G i Hi). unfold Rdiv in G. rewrite Rmult_0_l in G.
    match type of G with Rabs ?v <= 0 => set (z := v) in G; assert (Z0 : z = 0) end.
    { destruct (Req_dec z 0) as [Z|Z]; [exact Z|]. pose proof (Rabs_pos_lt _ Z). lra. }
    apply Rminus_diag_uniq. exact Z0. }
  exists q. split; [|split].
  - intros i Hi. rewrite (B i Hi). exact (KEY i Hi).
  - intros i Hi. symmetry. exact (KEY i Hi).
  - exact A.
Qed.
Print Assumptions C61_exact.

(** A tolerance of 1 or more: the loop does not run, the returned pressures are
    those of the undeformed sphere. *)
Theorem C61_large_tolerance : forall quad simpson d mu rhomax eps tol mix n maxiter w p r,
  (2 <= n)%nat -> 0 < rhomax -> 0 <= eps <= rhomax -> 1 <= tol ->
  greenwood_tripp quad simpson d mu rhomax eps tol mix n maxiter = Ret (w, p, r) ->
  forall i, (i < n)%nat -> nth i w 0 = 0.
Proof.
  intros quad simpson d mu rhomax eps tol mix n maxiter w p r Hn Hr He Ht E i Hi.
  destruct (proj1 (C61_iteration quad simpson d mu rhomax eps tol mix n maxiter Hn Hr He)) with (w := w) (p := p) (r := r) as [G _].
  destruct (G E) as [K [K1 [K2 [K3 [L1 [L2 [L3 H]]]]]]].
  destruct K as [|K]; [|exfalso; apply (K3 0%nat); [lia|]; exact Ht].
  destruct (H i Hi) as [_ [X _]]. exact X.
Qed.
Print Assumptions C61_large_tolerance.

(** Pressures are never negative: neither those of an iterate nor the returned
    ones, for a quadrature that gives no negative value for a function that is
    not negative. *)
Theorem C61_nonnegative : forall quad simpson d mu rhomax eps tol mix n,
  (2 <= n)%nat -> 0 < rhomax -> 0 <= eps <= rhomax -> 0 <= mix <= 1 -> 0 <= mu ->
  (forall f h, (forall s, h <= s -> 0 <= f s) -> 0 <= quad f h) ->
  let F := fun h => quad (fun s => fpow (s - h) (3 / 2) * (exp (- s ^ 2 / 2) / fpow (2 * PI) (1 / 2))) h in
  (forall k i, 0 <= iter_p F s_fun simpson d mu rhomax eps mix n k i) /\
  (forall maxiter w p r, greenwood_tripp quad simpson d mu rhomax eps tol mix n maxiter = Ret (w, p, r) ->
     forall i, (i < n)%nat -> 0 <= nth i p 0).
Proof.
  intros quad simpson d mu rhomax eps tol mix n Hn Hr He Hm Hmu Hq F.
  assert (F0 : forall h, 0 <= F h).
  { intros h. apply Hq. intros s Hs. pose proof PI_RGT_0 as P. apply Rmult_le_pos; [apply fpow_ge0|].
    apply Rdiv_le_0_compat; [left; apply exp_pos|]. apply fpow_gt0. lra. }
  split.
  - induction k as [|k IH]; intros i; [unfold iter_p; cbn; lra|].
    pose proof (P_S quad simpson d mu rhomax eps mix n k i) as PS. change (Fn quad) with F in PS. rewrite PS.
    apply Rplus_le_le_0_compat; apply Rmult_le_pos; [lra| |lra|apply IH].
    apply Rmult_le_pos; [exact Hmu|apply F0].
  - intros maxiter w p r E i Hi.
    destruct (proj1 (C61_iteration quad simpson d mu rhomax eps tol mix n maxiter Hn Hr He)) with (w := w) (p := p) (r := r) as [G _].
    destruct (G E) as [K [_ [_ [_ [_ [_ [_ H]]]]]]]. destruct (H i Hi) as [_ [_ X]]. rewrite X.
    apply Rmult_le_pos; [exact Hmu|apply F0].
Qed.
Print Assumptions C61_nonnegative.

(** [eps] outside of [0..rhomax]: the first pass leaves the range of the
    interpolation, which is an error. *)
Theorem C61_bad_eps : forall quad simpson d mu rhomax eps tol mix n maxiter,
  (2 <= n)%nat -> 0 < rhomax -> eps < 0 \/ rhomax < eps -> tol < 1 -> (0 <= maxiter)%Z ->
  greenwood_tripp quad simpson d mu rhomax eps tol mix n maxiter = Exc ValueErr.
Proof. intros quad simpson d mu rhomax eps tol mix n maxiter Hn Hr He Ht Hm. apply gt_bad_eps; assumption. Qed.
Print Assumptions C61_bad_eps.

(** ** The integration variable [s]

    [s] starts at zero, increases and is continuous at 1; its slope is the
    potential of a ring of load of radius [x] at distance 1 from the centre;
    the asymptotic formulas are off by at most a part in 10^10 of the formula in
    the documentation. *)
Theorem C61_s :
  s_fun 0 = 0 /\
  (forall x y, 0 <= x -> x < y -> s_fun x < s_fun y) /\
  continuous s_fun 1 /\
  (forall x, / 10 ^ 5 < x < 10 ^ 5 -> x <> 1 ->
     is_derive s_fun x (x / PI * RInt (fun a => / sqrt (1 + x ^ 2 - 2 * x * cos a)) 0 PI)) /\
  (forall x, 0 <= x ->
     let E := fun k => RInt (fun t => sqrt (1 - k ^ 2 * sin t ^ 2)) 0 (PI / 2) in
     let K := fun k => RInt (fun t => / sqrt (1 - k ^ 2 * sin t ^ 2)) 0 (PI / 2) in
     let doc := if Rlt_dec x 1 then 2 / PI * (E x + (x ^ 2 - 1) * K x) else 2 / PI * (x * E (1 / x)) in
     Rabs (s_fun x - doc) <= / 10 ^ 10 * s_fun x).
Proof.
  split; [exact s_0|]. split; [exact s_increasing|]. split; [exact s_cont_one|]. split.
  - intros x H1 H2. apply s_slope; [apply H1|apply H1|exact H2].
  - intros x Hx. cbv zeta. pose proof s1e5_val as V.
    assert (S0 : 0 <= s_fun x).
    { destruct Hx as [Hx|Hx]; [|subst x; rewrite s_0; lra]. rewrite <- s_0. left. apply s_increasing; lra. }
    assert (Z : Rabs 0 <= / 10 ^ 10 * s_fun x).
    { rewrite Rabs_R0. apply Rmult_le_pos; [|exact S0]. left. apply Rinv_0_lt_compat. lra. }
    destruct (Rlt_dec x 1) as [L|L].
    + change (Rabs (s_fun x - 2 / PI * ell_B x) <= / 10 ^ 10 * s_fun x).
      destruct (Rlt_le_dec x s1e5) as [S|S]; [apply s_small_error; lra|].
      rewrite s_mid in * by lra. rewrite Rminus_eq_0. exact Z.
    + assert (EE : RInt (fun t => sqrt (1 - (1 / x) ^ 2 * sin t ^ 2)) 0 (PI / 2) = ellipe (1 / x ^ 2)).
      { unfold ellipe. replace (1 / x ^ 2) with ((1 / x) ^ 2) by (field; lra). reflexivity. }
      rewrite EE. destruct (Rlt_le_dec (10 ^ 5) x) as [G|G]; [apply s_large_error; exact G|].
      rewrite s_out in * by lra. rewrite Rminus_eq_0. exact Z.
Qed.
Print Assumptions C61_s.

(** ** The inverse function [xi]

    It is no inverse of [s]: its argument has the same name as the function,
    and an array with an element in the numerical range is an error. *)
Theorem C61_inverse_refuted : forall l x, In x l -> / 10 ^ 5 <= x <= 10 ^ 5 -> xi_fun l = Exc TypeErr.
Proof.
  intros l x Hl Hx. unfold xi_fun.
  match goal with |- (if ?b then _ else _) = _ => replace b with true; [reflexivity|] end.
  symmetry. apply existsb_exists. exists x. split; [exact Hl|].
  unfold s1e5. destruct (Rlt_dec x (/ 10 ^ 5)); [lra|]. destruct (Rgt_dec x (10 ^ 5)); [lra|]. reflexivity.
Qed.
Print Assumptions C61_inverse_refuted.

(** At the two ends of the range it is one: values below [5e-11] and above
    [1e5] are recovered exactly. *)
Theorem C61_inverse_ends : forall l, (forall x, In x l -> 0 <= x < / 2 * / 10 ^ 10 \/ 10 ^ 5 < x) ->
  exists ys, xi_fun l = Ret ys /\ map s_fun ys = l /\ forall y, In y ys -> 0 <= y.
Proof.
  intros l H.
  assert (S5 : s1e5 = / 100000) by (unfold s1e5; f_equal; ring).
  assert (T10 : / 10 ^ 10 = / 100000 * / 100000) by field.
  exists (map (fun x => if Rlt_dec x s1e5 then sqrt (2 * x) else x) l). split; [|split].
  - unfold xi_fun.
    match goal with |- (if ?b then _ else _) = _ => replace b with false; [reflexivity|] end.
    symmetry. apply Bool.not_true_iff_false. intro E. apply existsb_exists in E. destruct E as (x & I & E).
    destruct (Rlt_dec x s1e5) as [|N1]; [discriminate|]. destruct (Rgt_dec x (10 ^ 5)) as [|N2]; [discriminate|].
    destruct (H x I) as [K|K]; [apply N1; rewrite S5; lra|apply N2; lra].
  - rewrite map_map. rewrite <- (map_id l) at 2. apply map_ext_in. intros x I.
    destruct (H x I) as [K|K].
    + destruct (Rlt_dec x s1e5) as [_|N]; [|exfalso; apply N; rewrite S5; lra].
      unfold s_fun. destruct (Rlt_dec (sqrt (2 * x)) s1e5) as [_|N].
      * rewrite <- Rsqr_pow2, Rsqr_sqrt by lra. field.
      * exfalso. apply N. rewrite S5. rewrite <- (sqrt_square (/ 100000)) by lra. apply sqrt_lt_1_alt. lra.
    + destruct (Rlt_dec x s1e5) as [N|_]; [exfalso; rewrite S5 in N; lra|].
      unfold s_fun. destruct (Rlt_dec x s1e5) as [N|_]; [exfalso; rewrite S5 in N; lra|].
      destruct (Rgt_dec x (10 ^ 5)) as [_|N]; [reflexivity|exfalso; apply N; lra].
  - intros y I. apply in_map_iff in I. destruct I as (x & <- & I).
    destruct (Rlt_dec x s1e5); [apply sqrt_pos|]. destruct (H x I); lra.
Qed.
Print Assumptions C61_inverse_ends.
Example C61_inverse_ends_nonvacuous : forall x, In x [0; / 10 ^ 11; 10 ^ 6] -> 0 <= x < / 2 * / 10 ^ 10 \/ 10 ^ 5 < x.
Proof.
  assert (E : / 10 ^ 11 = / 10 * / 10 ^ 10) by field. assert (P : 0 < / 10 ^ 10) by (apply Rinv_0_lt_compat; lra).
  intros x [<-|[<-|[<-|[]]]]; [left|left|right]; lra.
Qed.

(** ** Concrete cases *)
Definition ex_quad (f : R -> R) (h : R) : R := f (h + 1).
Definition ex_simpson (y x : list R) : R := fold_right Rplus 0 y.

Lemma ex_hyps :
  (forall l x, (forall y, In y l -> y = 0) -> ex_simpson l x = 0) /\
  (forall f h, (forall s, h <= s -> 0 <= f s) -> 0 <= ex_quad f h).
Proof.
  split.
  - intros l x. unfold ex_simpson. induction l as [|a l IH]; intros H; [reflexivity|]. cbn [fold_right].
    rewrite (H a (or_introl eq_refl)), IH by (intros y Hy; apply H; right; exact Hy). ring.
  - intros f h H. apply H. lra.
Qed.
Example C61_nonvacuous :
  (exists w p r, greenwood_tripp ex_quad ex_simpson 0 1 5 (/ 10 ^ 6) (/ 2) (/ 10) 3 0 = Ret (w, p, r)) /\
  greenwood_tripp ex_quad ex_simpson 0 1 5 (/ 10 ^ 6) (/ 2) (/ 10) 3 (-1) = Exc RuntimeErr /\
  (exists w p r, greenwood_tripp ex_quad ex_simpson 0 0 5 (/ 10 ^ 6) 0 (/ 10) 3 0 = Ret (w, p, r)).
Proof.
  assert (EP : 0 <= / 10 ^ 6 <= 5).
  { split; [left; apply Rinv_0_lt_compat; lra|]. apply (Rmult_le_reg_r (10 ^ 6)); [lra|]. rewrite Rinv_l; lra. }
  pose (F := Fn ex_quad).
  assert (PB : forall h, 0 <= F h <= 1).
  { intros h. unfold F, Fn, ex_quad, phi. replace (h + 1 - h) with 1 by ring.
    assert (E1 : fpow 1 (3 / 2) = 1).
    { unfold fpow. destruct (Req_EM_T 1 0); [lra|]. unfold Rpower. rewrite ln_1, Rmult_0_r. apply exp_0. }
    rewrite E1, Rmult_1_l. pose proof PI_RGT_0 as P. pose proof PI2_1 as P2.
    assert (E2 : fpow (2 * PI) (1 / 2) = sqrt (2 * PI)).
    { unfold fpow. destruct (Req_EM_T (2 * PI) 0); [lra|]. replace (1 / 2) with (/ 2) by field. apply Rpower_sqrt. lra. }
    rewrite E2. assert (Q : 1 <= sqrt (2 * PI)) by (rewrite <- sqrt_1 at 1; apply sqrt_le_1; lra).
    assert (X : 0 < exp (- (h + 1) ^ 2 / 2) <= 1).
    { split; [apply exp_pos|]. assert (N : - (h + 1) ^ 2 / 2 <= 0) by (pose proof (pow2_ge_0 (h + 1)); lra). destruct N as [L|L].
      - left. pose proof (exp_increasing _ _ L) as X. rewrite exp_0 in X. exact X.
      - rewrite L, exp_0. lra. }
    split; [apply Rdiv_le_0_compat; lra|].
    apply (Rmult_le_reg_r (sqrt (2 * PI))); [lra|]. unfold Rdiv. rewrite Rmult_assoc, Rinv_l by lra. lra. }
  split; [|split].
  - destruct (gt_result ex_quad ex_simpson 0 1 5 (/ 10 ^ 6) (/ 2) (/ 10) 3 ltac:(lia) ltac:(lra) EP 0) as [[K [_ [_ [_ E]]]]|[H _]].
    + do 3 eexists. exact E.
    + exfalso. apply (H 1%nat); [simpl; lia|]. cbn [settled]. intros i Hi.
      rewrite (P_S ex_quad ex_simpson 0 1 5 (/ 10 ^ 6) (/ 10) 3 0 i). unfold iter_p. cbn [iterate fst].
      unfold asperity. match goal with |- context [1 * Fn ex_quad ?h] => pose proof (PB h) as B; unfold F in B; set (z := Fn ex_quad h) in * end.
      replace (/ 10 * (1 * z) + (1 - / 10) * 0 - 0) with (z / 10) by field. rewrite Rabs_right; lra.
  - destruct (gt_result ex_quad ex_simpson 0 1 5 (/ 10 ^ 6) (/ 2) (/ 10) 3 ltac:(lia) ltac:(lra) EP (-1)) as [[K [K1 [K2 _]]]|[_ E]]; [|exact E].
    simpl in K1. replace K with 0%nat in K2 by lia. cbn [settled] in K2. lra.
  - destruct (gt_result ex_quad ex_simpson 0 0 5 (/ 10 ^ 6) 0 (/ 10) 3 ltac:(lia) ltac:(lra) EP 0) as [[K [_ [_ [_ E]]]]|[H _]].
    + do 3 eexists. exact E.
    + exfalso. apply (H 1%nat); [simpl; lia|]. cbn [settled]. intros i Hi.
      rewrite (P_S ex_quad ex_simpson 0 0 5 (/ 10 ^ 6) (/ 10) 3 0 i). unfold iter_p. cbn [iterate fst].
      unfold asperity. rewrite Rmult_0_l. replace (/ 10 * 0 + (1 - / 10) * 0 - 0) with 0 by ring. rewrite Rabs_R0. lra.
Qed.
