(** * Properties of the cone solution (C60) *)

From Coq Require Import Reals Lra Lia Psatz.
From Coquelicot Require Import Coquelicot.
From Verif Require Import Py Calc Hertz_Disp Westergaard_Mean Westergaard_Log Cone_Model Cone_Proofs.
From Coq Require Import List.
Import ListNotations.
Local Open Scope R_scope.

(** ** Spec: Sneddon's solution for a rigid cone of half angle [alpha]

    In units of the penetration: contact radius and surface deformation. *)
Definition sneddon_radius (alpha : R) : R := 2 / PI * tan alpha.
Definition sneddon (alpha r : R) : R :=
  let a := sneddon_radius alpha in
  if Rle_dec r a then 1 - r / tan alpha
  else 2 / PI * (asin (a / r) - r / a + sqrt ((r / a) ^ 2 - 1)).

Lemma tan_al : forall al, 0 < al < PI / 2 -> 0 < tan al.
Proof. intros al H. apply tan_gt_0; lra. Qed.
Lemma cot_al : forall al, 0 < al < PI / 2 -> tan (PI / 2 - al) = / tan al.
Proof.
  intros al H. unfold tan. rewrite cos_shift, sin_shift.
  assert (0 < sin al) by (apply sin_gt_0; lra). assert (0 < cos al) by (apply cos_gt_0; lra). field. lra.
Qed.
Lemma rc_sneddon : forall al, 0 < al < PI / 2 -> rc al = sneddon_radius al.
Proof.
  intros al H. unfold rc, sneddon_radius. rewrite cot_al by exact H. pose proof (tan_al al H).
  pose proof PI_RGT_0. field. lra.
Qed.

(** Contact radius, mean pressure and load follow Sneddon's formulas:
    [a = 2/pi D tan(alpha)], [F = 2/pi E D^2 tan(alpha)]. *)
Theorem C60_ratios : forall al E D, 0 < al < PI / 2 -> 0 < E -> 0 < D ->
  let a := fst (contact_radius_and_area al) * D in
  let pm := snd (load_and_mean_pressure al) * E in
  a = 2 / PI * D * tan al /\ 0 < a
  /\ fst (load_and_mean_pressure al) * E * (PI * a ^ 2) = 2 / PI * E * D ^ 2 * tan al
  /\ pm * (PI * a ^ 2) = 2 / PI * E * D ^ 2 * tan al.
Proof.
  intros al E D H HE HD a pm.
  assert (A : a = 2 / PI * D * tan al).
  { unfold a, contact_radius_and_area. cbn [fst]. fold (rc al). rewrite rc_sneddon by exact H.
    unfold sneddon_radius. ring. }
  pose proof (tan_al al H) as T. pose proof PI_RGT_0 as P.
  split; [exact A|]. split.
  { rewrite A. apply Rmult_lt_0_compat; [|exact T]. apply Rmult_lt_0_compat; [|exact HD]. apply Rdiv_lt_0_compat; lra. }
  unfold pm, load_and_mean_pressure. cbn [fst snd]. rewrite A, cot_al by exact H.
  split; field; lra.
Qed.
Print Assumptions C60_ratios.

(** The second result of [contact_radius_and_area] is documented as contact
    area over penetration squared.  It is not the area of the disc with the
    returned contact radius (the square is missing). *)
Theorem C60_area_refuted :
  ~ (forall al, 0 < al < PI / 2 ->
       snd (contact_radius_and_area al) = PI * fst (contact_radius_and_area al) ^ 2).
Proof.
  intros H. pose proof PI_RGT_0 as P. pose proof PI2_1 as P2.
  assert (B : 0 < PI / 4 < PI / 2) by lra. specialize (H (PI / 4) B).
  unfold contact_radius_and_area in H. cbn [fst snd] in H. fold (rc (PI / 4)) in H.
  rewrite rc_sneddon in H by exact B. unfold sneddon_radius in H. rewrite tan_PI4 in H.
  assert (E1 : PI * (2 / PI * 1) = 2) by (field; lra). assert (E2 : PI * (2 / PI * 1) ^ 2 = 4 / PI) by (field; lra).
  rewrite E1, E2 in H. assert (2 * PI = 4) by (rewrite H; field; lra). lra.
Qed.
Print Assumptions C60_area_refuted.

(** The pressure: positive and decreasing inside the contact radius, zero
    from there on, continuous for all positive radii; its mean over the
    contact disc is one (it is infinite at the tip, so the integral starts at
    a small radius [e]). *)
Theorem C60_pressure : forall al, 0 < al < PI / 2 ->
  let a := sneddon_radius al in
  (forall r, 0 < r -> r < a -> 0 < pressure1 al r)
  /\ (forall r, a <= r -> pressure1 al r = 0)
  /\ (forall r s, 0 < r -> r < s -> s <= a -> pressure1 al s < pressure1 al r)
  /\ (forall r, 0 < r -> continuous (pressure1 al) r)
  /\ (forall e, 0 < e -> e <= a -> exists v,
        is_RInt (fun r => 2 * PI * r * pressure1 al r) e a v
        /\ PI * a ^ 2 - 3 * PI * a * e <= v <= PI * a ^ 2).
Proof.
  intros al H. cbv zeta. rewrite <- (rc_sneddon al H). pose proof PI_RGT_0 as P.
  split; [|split; [|split; [|split]]].
  - apply p_pos; exact H.
  - apply p_out; exact H.
  - apply p_decr; exact H.
  - apply p_cont; exact H.
  - intros e He Hc. destruct (p_mean al H e He Hc) as (v & I & B). cbv zeta in I, B.
    exists (PI * v). split.
    + apply (is_RInt_ext (V := R_NormedModule) (fun r => scal PI (2 * r * pressure1 al r))).
      { intros r _. change (PI * (2 * r * pressure1 al r) = 2 * PI * r * pressure1 al r). ring. }
      apply (is_RInt_scal (V := R_NormedModule)). exact I.
    + set (a := rc al) in *. split; nra.
Qed.
Print Assumptions C60_pressure.

(** Sneddon's surface: the contact edge joins continuously, the surface is
    positive, decreasing, follows the cone inside and stays clear of it outside. *)
Lemma sneddon_out : forall al r, 0 < al < PI / 2 -> sneddon_radius al <= r ->
  sneddon al r = 2 / PI * outer (r / sneddon_radius al).
Proof.
  intros al r H L. pose proof (rc_pos al H) as Pc. rewrite rc_sneddon in Pc by exact H.
  pose proof (tan_al al H) as T. pose proof PI_RGT_0 as P. unfold sneddon. cbv zeta.
  set (a := sneddon_radius al) in *.
  destruct (Rle_dec r a) as [Q|Q].
  - assert (E : r = a) by lra. rewrite E. replace (a / a) with 1 by (field; lra). rewrite outer_1.
    unfold a, sneddon_radius. field. lra.
  - unfold outer. replace (1 / (r / a)) with (a / r) by (field; lra). reflexivity.
Qed.
Theorem C60_surface : forall al, 0 < al < PI / 2 ->
  let a := sneddon_radius al in
  sneddon al 0 = 1 /\ sneddon al a = 1 - 2 / PI
  /\ (forall r s, 0 <= r -> r < s -> sneddon al s < sneddon al r)
  /\ (forall r, 0 <= r -> 0 < sneddon al r)
  /\ (forall r, 0 <= r <= a -> sneddon al r = 1 - r / tan al)
  /\ (forall r, a < r -> 1 - r / tan al < sneddon al r).
Proof.
  intros al H. cbv zeta. pose proof (rc_pos al H) as Pc. rewrite rc_sneddon in Pc by exact H.
  pose proof (tan_al al H) as T. pose proof PI_RGT_0 as P. pose proof PI2_1 as P2.
  assert (AT : sneddon_radius al / tan al = 2 / PI) by (unfold sneddon_radius; field; lra).
  set (a := sneddon_radius al) in *.
  assert (Q2 : 0 < 2 / PI) by (apply Rdiv_lt_0_compat; lra).
  assert (P1 : 2 / PI < 1).
  { apply (Rmult_lt_reg_r PI); [lra|]. unfold Rdiv. rewrite Rmult_assoc, Rinv_l by lra. lra. }
  assert (Tin : forall r s, r < s -> r / tan al < s / tan al).
  { intros r s L. unfold Rdiv. apply Rmult_lt_compat_r; [apply Rinv_0_lt_compat|]; lra. }
  assert (IN : forall r, r <= a -> sneddon al r = 1 - r / tan al).
  { intros r L. unfold sneddon. cbv zeta. fold a. destruct (Rle_dec r a); [reflexivity|lra]. }
  assert (OUT : forall r, a <= r -> sneddon al r = 2 / PI * outer (r / a)) by (intros; apply sneddon_out; assumption).
  assert (GE : forall r, a <= r -> 1 <= r / a).
  { intros r L. apply (Rmult_le_reg_r a); [lra|]. unfold Rdiv. rewrite Rmult_assoc, Rinv_l by lra. lra. }
  assert (GT : forall r s, r < s -> r / a < s / a).
  { intros r s L. unfold Rdiv. apply Rmult_lt_compat_r; [apply Rinv_0_lt_compat|]; lra. }
  assert (DO : forall r s, a <= r -> r < s -> sneddon al s < sneddon al r).
  { intros r s L1 L2. rewrite !OUT by lra. apply Rmult_lt_compat_l; [exact Q2|]. apply outer_decr; [apply GE|apply GT]; lra. }
  split; [rewrite IN by lra; unfold Rdiv; ring|]. split; [rewrite IN by lra; lra|].
  split.
  - intros r s H0 L. destruct (Rle_lt_dec s a) as [S|S].
    + rewrite !IN by lra. pose proof (Tin r s L). lra.
    + destruct (Rle_lt_dec a r) as [Rr|Rr]; [apply DO; lra|].
      apply Rlt_trans with (sneddon al a); [apply DO; lra|]. rewrite !IN by lra. pose proof (Tin r a Rr). lra.
  - split.
    + intros r H0. destruct (Rle_lt_dec r a) as [S|S].
      * rewrite IN by exact S. destruct S as [S|S]; [pose proof (Tin r a S); lra|rewrite S; lra].
      * rewrite OUT by lra. apply Rmult_lt_0_compat; [exact Q2|]. apply outer_pos, GE; lra.
    + split; [intros r B; apply IN; lra|].
      intros r L. rewrite OUT by lra.
      assert (G1 : 1 < r / a). { replace 1 with (a / a) by (field; lra). apply GT; exact L. }
      pose proof (outer_flank (r / a) G1) as F.
      replace (1 - r / tan al) with (2 / PI * (PI / 2 - r / a)); [apply Rmult_lt_compat_l; [exact Q2|exact F]|].
      unfold a, sneddon_radius. field. lra.
Qed.
Print Assumptions C60_surface.

(** ** The function [deformation] *)
Lemma lmax_spec : forall l x, let m := lmax x l in (m = x \/ In m l) /\ x <= m /\ (forall y, In y l -> y <= m).
Proof.
  induction l as [|y l IH]; intros x; cbn [lmax fold_left].
  - cbv zeta. split; [left; reflexivity|]. split; [lra|intros y []].
  - fold (lmax (Rmax x y) l). destruct (IH (Rmax x y)) as (A & B & C). cbv zeta in *.
    set (m := lmax (Rmax x y) l) in *. pose proof (Rmax_l x y). pose proof (Rmax_r x y).
    split; [|split; [lra|]].
    + destruct A as [A|A]; [|right; right; exact A].
      revert A. unfold Rmax. destruct (Rle_dec x y); intros A; [right; left; symmetry; exact A|left; exact A].
    + intros z [E|Hz]; [subst z; lra|apply C; exact Hz].
Qed.

(** What [deformation] computes: Sneddon's surface outside the contact;
    inside it the cone shifted so that it meets the edge value at the largest
    of the given radii inside the contact. *)
Theorem C60_deformation : forall al l u, 0 < al < PI / 2 -> (forall r, In r l -> 0 <= r) ->
  deformation l al = Ret u ->
  let a := sneddon_radius al in
  exists m, In m l /\ m <= a /\ (forall r, In r l -> r <= a -> r <= m)
    /\ length u = length l
    /\ (forall i r v, nth_error l i = Some r -> nth_error u i = Some v ->
          (a <= r -> v = sneddon al r) /\ (r < a -> v = sneddon al r - (a - m) / tan al)).
Proof.
  intros al l u H NN E. cbv zeta. pose proof (rc_pos al H) as Pc. pose proof (tan_al al H) as T.
  pose proof PI_RGT_0 as P.
  unfold deformation in E. cbv zeta in E. fold (rc al) in E.
  rewrite (rc_sneddon al H) in E, Pc. set (a := sneddon_radius al) in *.
  set (sel := fun r => if Rle_dec r a then true else false) in E.
  assert (SEL : forall r, In r (filter sel l) <-> In r l /\ r <= a).
  { intros r. rewrite filter_In. unfold sel. destruct (Rle_dec r a); intuition (try discriminate); lra. }
  destruct (filter sel l) as [|f rest] eqn:F; [discriminate E|].
  set (m := lmax f rest) in E. injection E as E.
  destruct (lmax_spec rest f) as (M1 & M2 & M3). cbv zeta in M1, M2, M3. fold m in M1, M2, M3.
  assert (MI : In m (f :: rest)) by (destruct M1 as [M1|M1]; [left; symmetry; exact M1|right; exact M1]).
  apply SEL in MI. destruct MI as [MI ML].
  exists m. split; [exact MI|]. split; [exact ML|]. split.
  { intros r Hr Lr. assert (Ir : In r (f :: rest)) by (apply SEL; split; assumption).
    destruct Ir as [Ir|Ir]; [subst r; exact M2|apply M3; exact Ir]. }
  split; [rewrite <- E; apply map_length|].
  intros i r v Nr Nv. rewrite <- E in Nv. rewrite nth_error_map, Nr in Nv. cbn [option_map] in Nv. injection Nv as Nv.
  split; intros L.
  - destruct (Rge_dec r a) as [G|G]; [|lra]. rewrite <- Nv, sneddon_out by assumption.
    fold a. unfold outer. replace (1 / (r / a)) with (a / r) by (field; lra).
    change (r / a * (r / a * 1)) with ((r / a) ^ 2). field. lra.
  - destruct (Rge_dec r a) as [G|G]; [lra|]. destruct (Req_EM_T r a) as [Q|Q]; [lra|].
    destruct (Rle_dec r a) as [W|W]; [|lra]. rewrite <- Nv. unfold sneddon. cbv zeta. fold a.
    destruct (Rle_dec r a) as [_|W']; [|lra]. rewrite cot_al by exact H.
    unfold a, sneddon_radius. field. lra.
Qed.
Print Assumptions C60_deformation.

(** With a sample on the contact edge the result is Sneddon's surface. *)
Theorem C60_deformation_edge : forall al l u, 0 < al < PI / 2 -> (forall r, In r l -> 0 <= r) ->
  In (sneddon_radius al) l -> deformation l al = Ret u ->
  u = map (sneddon al) l.
Proof.
  intros al l u H NN I E. destruct (C60_deformation al l u H NN E) as (m & M1 & M2 & M3 & Le & V). cbv zeta in *.
  assert (EM : m = sneddon_radius al) by (pose proof (M3 _ I ltac:(lra)); lra).
  apply nth_ext with (d := 0) (d' := sneddon al 0); [rewrite map_length; exact Le|].
  intros n Hn. rewrite map_nth.
  assert (NL : nth_error l n = Some (nth n l 0)) by (apply nth_error_nth'; lia).
  assert (NU : nth_error u n = Some (nth n u 0)) by (apply nth_error_nth'; lia).
  destruct (V n _ _ NL NU) as [V1 V2].
  destruct (Rle_lt_dec (sneddon_radius al) (nth n l 0)) as [L|L]; [apply V1; exact L|].
  rewrite V2 by exact L. rewrite EM. unfold Rdiv. ring.
Qed.
Print Assumptions C60_deformation_edge.

(** In general it is not, and the result at a point depends on the other
    points: alone, a point inside the contact always gets the edge value. *)
Theorem C60_deformation_refuted :
  ~ (forall al l u, 0 < al < PI / 2 -> (forall r, In r l -> 0 <= r) -> deformation l al = Ret u ->
       u = map (sneddon al) l).
Proof.
  intros H. pose proof PI_RGT_0 as P. assert (B : 0 < PI / 4 < PI / 2) by lra.
  assert (S : sneddon_radius (PI / 4) = 2 / PI) by (unfold sneddon_radius; rewrite tan_PI4; ring).
  assert (Q : 0 < 2 / PI) by (apply Rdiv_lt_0_compat; lra).
  assert (NN : forall r, In r [0] -> 0 <= r) by (intros r [Er|[]]; lra).
  assert (D : exists u, deformation [0] (PI / 4) = Ret u).
  { unfold deformation. cbv zeta. fold (rc (PI / 4)). rewrite rc_sneddon, S by exact B.
    cbn [filter]. destruct (Rle_dec 0 (2 / PI)) as [_|N]; [|lra]. eexists. reflexivity. }
  destruct D as [u D]. pose proof (H _ _ _ B NN D) as E.
  destruct (C60_deformation _ _ _ B NN D) as (m & M1 & M2 & M3 & Le & V). cbv zeta in *.
  destruct M1 as [M1|[]]. subst m. rewrite E in V.
  pose proof (proj2 (V 0%nat 0 (sneddon (PI / 4) 0) eq_refl eq_refl) ltac:(lra)) as V2.
  rewrite S, tan_PI4 in V2. lra.
Qed.
Print Assumptions C60_deformation_refuted.

(** Without a point inside the contact the function fails. *)
Theorem C60_deformation_outside : forall al l, 0 < al < PI / 2 ->
  (forall r, In r l -> sneddon_radius al < r) -> deformation l al = Exc ValueErr.
Proof.
  intros al l H N. unfold deformation. cbv zeta. fold (rc al). rewrite rc_sneddon by exact H.
  destruct (filter _ l) as [|f rest] eqn:F; [reflexivity|exfalso].
  assert (I : In f (f :: rest)) by (left; reflexivity). rewrite <- F in I. apply filter_In in I.
  destruct I as [I1 I2]. pose proof (N f I1). destruct (Rle_dec f (sneddon_radius al)); [lra|discriminate].
Qed.
Print Assumptions C60_deformation_outside.

(** Half angle 45 degrees: contact radius 2/pi. *)
Example C60_nonvacuous :
  0 < PI / 4 < PI / 2 /\ sneddon_radius (PI / 4) = 2 / PI
  /\ 0 < pressure1 (PI / 4) (1 / PI) /\ pressure1 (PI / 4) 1 = 0
  /\ exists u, deformation [0; 2 / PI; 1] (PI / 4) = Ret u /\ nth_error u 0 = Some 1 /\ nth_error u 1 = Some (1 - 2 / PI).
Proof.
  pose proof PI_RGT_0 as P. pose proof PI2_1 as P2. assert (B : 0 < PI / 4 < PI / 2) by lra.
  assert (S : sneddon_radius (PI / 4) = 2 / PI) by (unfold sneddon_radius; rewrite tan_PI4; ring).
  assert (Q : 0 < 1 / PI) by (apply Rdiv_lt_0_compat; lra).
  assert (Q2 : 2 / PI = 2 * (1 / PI)) by (field; lra).
  assert (P1 : 2 / PI < 1).
  { apply (Rmult_lt_reg_r PI); [lra|]. unfold Rdiv. rewrite Rmult_assoc, Rinv_l by lra. lra. }
  destruct (C60_pressure _ B) as (A1 & A2 & _). cbv zeta in *. rewrite S in *.
  split; [exact B|]. split; [reflexivity|]. split; [apply A1; lra|]. split; [apply A2; lra|].
  assert (NN : forall r, In r [0; 2 / PI; 1] -> 0 <= r) by (intros r [E|[E|[E|[]]]]; lra).
  assert (D : exists u, deformation [0; 2 / PI; 1] (PI / 4) = Ret u).
  { unfold deformation. cbv zeta. fold (rc (PI / 4)). rewrite rc_sneddon, S by exact B.
    cbn [filter]. destruct (Rle_dec 0 (2 / PI)) as [_|N]; [|lra].
    destruct (Rle_dec (2 / PI) (2 / PI)) as [_|N]; [|lra]. eexists. reflexivity. }
  destruct D as [u D]. exists u. split; [exact D|].
  rewrite (C60_deformation_edge _ _ _ B NN ltac:(rewrite S; right; left; reflexivity) D).
  destruct (C60_surface _ B) as (S0 & S1 & _). cbv zeta in *. rewrite S in S1.
  cbn [map nth_error]. rewrite S0, S1. split; reflexivity.
Qed.
