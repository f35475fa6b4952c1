(** * C88: the numbers the contact solver returns, as real numbers

    What a successful run in floating point arithmetic says about the contact
    problem for real numbers.  The statements hold for every arithmetic that
    obeys the laws of Float_Spec.v and rounds as in Float_Round_Spec.v, whatever
    the order of summation; double precision is one ([C88_double]). *)
From Coq Require Import Reals List Bool Arith Lia Lra ZArith.
From Coq Require Import Floats.SpecFloat.
From Verif Require Import Float_Model Float_Spec Float_Proofs Float_IEEE Float_Round_Spec Float_Round
  Float_Double Float_Double_Witness Prop_Float.
From Coq Require Import List.
Import ListNotations.
Local Open Scope R_scope.

Section C88.
  Context {F P : Type}.
  Variable K : Arith F.
  Variable fin : F -> Prop.
  Hypothesis L : laws K fin.
  Variable val : F -> R.
  Variables u eta : R.
  Hypothesis V : rounding K fin val u eta.
  Variable c : fcfg (F:=F) (P:=P).
  Local Notation gap := (gap val c).
  Local Notation press := (press val).
  Local Notation lower := (lower val u c).
  Local Notation upper := (upper val u eta c).

  (** A successful elastic run that ended with a step of constant contact area. *)
  Definition done (maxiter : nat) (o : foutcome (F:=F) (P:=P)) : Prop :=
    k_hard c = None /\ spreads fin c /\ fin (k_pentol c)
    /\ frun K c maxiter = inl o /\ o_success o = true /\ o_str o = FCg.
  (** The gaps do not overflow. *)
  Definition gaps_fin (o : foutcome (F:=F) (P:=P)) : Prop :=
    forall p, surface c p -> fin (asub K (aadd K (k_h c p) (o_offset o)) (o_x o p)).
  (** The points can be counted. *)
  Definition countable : Prop := forall n, (n <= length (k_pts c))%nat -> fin (anat K n).

  Lemma done_state : forall maxiter o, done maxiter o -> exists s h, ffirst K c s = inl h
    /\ w_conv (fsecond K c s h) = true /\ fnew_str K c h = FCg
    /\ o_x o = k_disp c (fnew_force K c h) /\ o_offset o = y_off h /\ o_active o = y_c h /\ o_tau o = y_tau h
    /\ (forall p, o_jac o p = aopp K (fnew_force K c h p)).
  Proof.
    intros n o (EL & SP & PT & H & Su & ST). destruct (run_inv K c n o H) as (s & h & Rs & Fi & E & Cv).
    exists s, h. specialize (Cv Su). rewrite E in *.
    cbn [fresult fsecond o_str o_offset o_x o_active o_tau o_jac w_state w_half z_u z_off z_str z_tau z_f] in *.
    rewrite ST, andb_false_r. tauto.
  Qed.

  (** ** No penetration beyond the tolerance *)
  Theorem C88_penetration : forall maxiter o, done maxiter o -> gaps_fin o ->
    forall p, surface c p -> - lower o p <= gap o p.
  Proof.
    intros n o D GF p Sp. destruct (done_state n o D) as (s & h & Fi & Cv & ST & EX & EO & EA & _).
    destruct D as (EL & SP & PT & _). unfold gaps_fin in GF. rewrite EX, EO in GF.
    pose proof (no_pen K fin L val u eta V c EL SP PT s h Fi Cv ST GF p Sp) as Q.
    unfold Float_Round_Spec.gap, Float_Round_Spec.lower, tol. unfold size in Q. rewrite EX, EO. lra.
  Qed.

  (** ** Points in contact touch *)
  Theorem C88_touch : forall maxiter o, done maxiter o -> countable -> aeq K (o_tau o) (a0 K) = false ->
    forall p, surface c p -> o_active o p = true -> gap o p <= upper o p.
  Proof.
    intros n o D CO TA p Sp A. destruct (done_state n o D) as (s & h & Fi & Cv & ST & EX & EO & EA & ET & _).
    destruct D as (EL & SP & PT & _). rewrite ET in TA. rewrite EA in A.
    pose proof (active_gap K fin L val u eta V c SP PT s h Fi Cv ST CO TA p Sp A) as Q.
    assert (AR : area c o = INR (y_Acg h)).
    { unfold area. rewrite EA. pose proof (st_half K c s h Fi ST) as SH. rewrite cg_half_eq in SH. rewrite SH. reflexivity. }
    apply sqrt_le_1_alt in Q. rewrite <- Rsqr_pow2, sqrt_Rsqr_abs in Q.
    pose proof (gap_upper K fin L val u eta V c SP PT s h Fi Cv ST p _ Sp Q) as R1.
    unfold Float_Round_Spec.gap, Float_Round_Spec.upper, tol. rewrite EX, EO, AR.
    eapply Rle_trans; [exact R1|]. right. do 4 f_equal. unfold touch. rewrite pow_add.
    pose proof (v_unit _ _ _ _ _ V). unfold Rdiv. rewrite Rinv_mult. ring.
  Qed.

  (** ** Pressures *)
  (** They are not negative, and with a given offset they act only at points in contact. *)
  Theorem C88_pressure : load_pos K c -> forall maxiter o, done maxiter o -> forall p, In p (k_pts c) ->
    0 <= press o p /\ (~ surface c p -> press o p = 0)
    /\ (k_ext c = None -> surface c p -> o_active o p = false -> press o p = 0).
  Proof.
    intros LP n o D p I. destruct (done_state n o D) as (s & h & Fi & Cv & ST & EX & EO & EA & ET & EJ).
    destruct D as (EL & SP & PT & H & Su & SO).
    assert (HP : hard_pos K c) by (intros Hd Q; congruence).
    destruct (C85_finite K fin L c SP n o H Su p I) as [_ FJ]. split; [|split].
    - destruct (C85_pressure K fin L c HP LP n o H ltac:(congruence) p) as [N _].
      apply (not_lt K fin val u eta V _ _ FJ (l_fin_zero K fin L)) in N. rewrite (v_zero _ _ _ _ _ V) in N. exact N.
    - intro NS. pose proof (C85_outside K fin L c SP HP n o H Su p I NS) as Z.
      apply (v_eq _ _ _ _ _ V _ _ FJ (l_fin_zero K fin L)) in Z. rewrite (v_zero _ _ _ _ _ V) in Z. exact Z.
    - intros GO Sp A. rewrite EA in A. unfold Float_Round_Spec.press. rewrite EJ, (v_opp _ _ _ _ _ V).
      rewrite (inactive_zero K fin L val u eta V c EL SP s h Fi Cv ST GO p Sp A). ring.
  Qed.

  (** ** The load *)
  Theorem C88_load : forall Fx, k_ext c = Some Fx -> fin (k_thermotol c) -> forall maxiter o,
    frun K c maxiter = inl o -> o_success o = true ->
    let pts := filter (fun p => k_slice c p && negb (k_masked c p)) (k_pts c) in
    let sum f := fold_right Rplus 0 (map f pts) in
    let z := (1 + u) ^ length pts in
    Rabs (sum (press o) - val Fx)
      <= (z * (val (k_thermotol c) + eta) / (1 - u) ^ 2 + z - 1) * sum (fun p => Rabs (press o p)).
  Proof.
    intros Fx X Ft n o H Su pts sum z.
    pose proof (C85_load K c n o Fx X H Su) as Q.
    pose proof (load_error K fin L val u eta V _ _ _ _ (l_sum K fin L _) Ft Q) as E. rewrite map_length in E.
    fold pts in E. fold z in E. destruct (C85_result K c n o H) as (_ & EJ & _).
    assert (E1 : - rsum val (map (o_full o) pts) = sum (press o)).
    { unfold rsum, sum. rewrite map_map. clear - V EJ. induction pts as [|p l IH]; cbn [map fold_right]; [ring|].
      rewrite <- IH. unfold Float_Round_Spec.press. rewrite EJ, (v_opp _ _ _ _ _ V). ring. }
    assert (E2 : rabs val (map (o_full o) pts) = sum (fun p => Rabs (press o p))).
    { unfold rabs, sum. rewrite map_map. apply fold_sum_ext. intros p _. unfold Float_Round_Spec.press.
      rewrite EJ, (v_opp _ _ _ _ _ V), Rabs_Ropp. reflexivity. }
    rewrite E1, E2 in E. exact E.
  Qed.

  (** ** The substrate *)
  Theorem C88_response : forall mat, by_matrix K c mat -> forall maxiter o, frun K c maxiter = inl o ->
    o_success o = true -> forall p, In p (k_pts c) ->
    Rabs (val (o_x o p) - response val c mat (press o) p) <= spill val u eta c o mat p.
  Proof.
    intros mat BM n o H Su p I.
    destruct (C85_finite K fin L c (matrix_spreads K fin L c mat BM) n o H Su p I) as [FX _].
    destruct (C85_result K c n o H) as (EX & EJ & _).
    assert (HS : summed K (map (fun q => amul K (mat p q) (o_full o q)) (k_pts c)) (o_x o p)) by (rewrite EX; apply BM, I).
    pose proof (matrix_error K fin L val u eta V (mat p) (o_full o) (k_pts c) _ HS FX) as E.
    unfold response, spill, total.
    rewrite (fold_sum_ext _ (fun q => - val (mat p q) * press o q) (fun q => val (mat p q) * val (o_full o q)))
      by (intros q _; unfold Float_Round_Spec.press; rewrite EJ, (v_opp _ _ _ _ _ V); ring).
    rewrite (fold_sum_ext _ (fun q => Rabs (val (mat p q)) * Rabs (press o q)) (fun q => Rabs (val (mat p q)) * Rabs (val (o_full o q))))
      by (intros q _; unfold Float_Round_Spec.press; rewrite EJ, (v_opp _ _ _ _ _ V), Rabs_Ropp; reflexivity).
    exact E.
  Qed.

  (** ** Distance from the exact solution *)
  (** Measured by the elastic energy of the difference of the pressures; [ps] solves the
      problem for real numbers at the returned offset. *)
  Theorem C88_accuracy : load_pos K c -> forall mat, by_matrix K c mat -> forall maxiter o, done maxiter o ->
    gaps_fin o -> countable -> aeq K (o_tau o) (a0 K) = false ->
    (forall p, surface c p -> o_active o p = false -> press o p = 0) ->
    forall ps, exact val c o mat ps ->
    total c (fun p => (press o p - ps p) * response val c mat (fun q => press o q - ps q) p)
      <= total c (fun p => press o p * upper o p + ps p * lower o p + (press o p + ps p) * spill val u eta c o mat p).
  Proof.
    intros LP mat BM n o D GF CO TA IN ps EXA. unfold total, response.
    apply (accuracy P (k_pts c) (surface c) (fun p q => - val (mat p q)) (fun p => val (k_h c p)) (fun p => val (o_x o p))
             (press o) ps (lower o) (upper o) (spill val u eta c o mat) (val (o_offset o))).
    - intros p I. unfold surface. destruct (k_slice c p), (k_masked c p); (left; tauto) || (right; intros (_ & A & B); discriminate).
    - intros p I Sp. destruct (C88_pressure LP n o D p I) as [P0 _]. split; [exact P0|].
      split; [exact (C88_penetration n o D GF p Sp)|]. split.
      + intro NZ. apply (C88_touch n o D CO TA p Sp). destruct (o_active o p) eqn:A; [reflexivity|].
        exfalso. exact (NZ (IN p Sp A)).
      + destruct D as (_ & _ & _ & H & Su & _). exact (C88_response mat BM n o H Su p I).
    - intros p I NS. exact (proj1 (proj2 (C88_pressure LP n o D p I)) NS).
    - exact EXA.
  Qed.
  (** If the compliance is at least [m] in every direction, this bounds the differences themselves. *)
  Theorem C88_distance : load_pos K c -> forall mat, by_matrix K c mat -> forall maxiter o, done maxiter o ->
    gaps_fin o -> countable -> aeq K (o_tau o) (a0 K) = false ->
    (forall p, surface c p -> o_active o p = false -> press o p = 0) ->
    forall m, 0 < m -> (forall d, m * total c (fun p => d p ^ 2) <= total c (fun p => d p * response val c mat d p)) ->
    forall ps, exact val c o mat ps -> forall p, In p (k_pts c) ->
    (press o p - ps p) ^ 2
      <= total c (fun p => press o p * upper o p + ps p * lower o p + (press o p + ps p) * spill val u eta c o mat p) / m.
  Proof.
    intros LP mat BM n o D GF CO TA IN m M0 PD ps EXA p I.
    pose proof (C88_accuracy LP mat BM n o D GF CO TA IN ps EXA) as Q.
    specialize (PD (fun p => press o p - ps p)).
    assert (T : (press o p - ps p) ^ 2 <= total c (fun p => (press o p - ps p) ^ 2)).
    { unfold total. clear - I. induction (k_pts c) as [|q l IH]; [destruct I|]. cbn [map fold_right].
      assert (N : forall k : list P, 0 <= fold_right Rplus 0 (map (fun p => (press o p - ps p) ^ 2) k)).
      { induction k as [|r k IK]; cbn [map fold_right]; [lra|]. pose proof (pow2_ge_0 (press o r - ps r)). lra. }
      destruct I as [->|I]; [pose proof (N l); lra|]. pose proof (pow2_ge_0 (press o q - ps q)). specialize (IH I). lra. }
    apply Rmult_le_reg_r with m; [exact M0|]. unfold Rdiv. rewrite Rmult_assoc, Rinv_l, Rmult_1_r by lra.
    apply Rmult_le_compat_r with (r := m) in T; [|lra]. lra.
  Qed.
End C88.

(** Doubles: relative error [2^-53], absolute error [2^-1075]. *)
Theorem C88_double : laws AD finD /\ rounding AD finD val64 (/ 2 ^ 53) (/ 2 ^ 1075).
Proof. exact (conj double_laws double_rounding). Qed.

Print Assumptions C88_penetration.
Print Assumptions C88_touch.
Print Assumptions C88_pressure.
Print Assumptions C88_load.
Print Assumptions C88_response.
Print Assumptions C88_accuracy.
Print Assumptions C88_distance.
Print Assumptions C88_double.

(** ** Runs with doubles *)
Lemma num_small : forall s m k, num64 (S754_finite s m (Z.neg k))
  = IZR (if s then Z.neg m else Z.pos m) / IZR (Z.pow_pos 2 k).
Proof.
  intros s m k. cbn [num64]. unfold powerRZ, Rdiv. rewrite Z.pow_pos_fold, <- (positive_nat_Z k), <- pow_IZR.
  destruct s; [change (Z.neg m) with (- Z.pos m)%Z; rewrite opp_IZR|]; rewrite ?positive_nat_Z; reflexivity.
Qed.
Lemma val_dbl : forall m e r, raw (dbl m e) = r -> val64 (dbl m e) = num64 r.
Proof. intros m e r <-. reflexivity. Qed.
Ltac num := match goal with |- val64 (dbl ?m ?e) = _ =>
  let r := eval vm_compute in (raw (dbl m e)) in
  rewrite (val_dbl m e r) by (vm_compute; reflexivity); rewrite num_small;
  match goal with |- context [Z.pow_pos ?a ?b] => let z := eval vm_compute in (Z.pow_pos a b) in
    change (Z.pow_pos a b) with z end; cbv iota; lra end.
Lemma val_1 : val64 (dbl 1 0) = 1. Proof. num. Qed.
Lemma val_m5 : val64 (dbl (-5) 0) = -5. Proof. num. Qed.
Lemma val_m3 : val64 (dbl (-3) 0) = -3. Proof. num. Qed.
Lemma val_m1 : val64 (dbl (-1) 0) = -1. Proof. num. Qed.
Lemma zero_off : forall o : foutcome (F:=D64) (P:=bool), raw (o_offset o) = S754_zero false -> val64 (o_offset o) = 0.
Proof. intros o E. unfold val64. rewrite E. reflexivity. Qed.
Lemma elD_response : forall d p, response val64 elD disp_mat d p = if p then 3 * d true + d false else d true + 3 * d false.
Proof.
  intros d p. unfold response, total. cbn [elD cfgD k_pts map fold_right].
  destruct p; cbn [disp_mat Bool.eqb]; rewrite val_m3, val_m1; ring.
Qed.
Lemma elD_exact : forall o, raw (o_offset o) = S754_zero false ->
  exact val64 elD o disp_mat (fun p => if p then / 3 else 0).
Proof.
  intros o E p I. rewrite elD_response, (zero_off o E).
  split; [|intro N; exfalso; apply N; split; [exact I|split; reflexivity]]. intros _.
  destruct p; cbn [elD cfgD k_h]; [rewrite val_1|rewrite val_m5]; lra.
Qed.
(** Given offset: all hypotheses hold for a run with one point in contact, whose pressure is the
    double closest to the exact one, 1/3. *)
Example C88_nonvacuous : exists o, done AD finD elD 4 o /\ gaps_fin AD finD elD o /\ countable AD finD elD
  /\ aeq AD (o_tau o) (a0 AD) = false /\ load_pos AD elD /\ by_matrix AD elD disp_mat
  /\ (forall p, surface elD p -> o_active o p = false -> press val64 o p = 0)
  /\ surface elD true /\ o_active o true = true /\ press val64 o true = 6004799503160661 / 18014398509481984
  /\ exact val64 elD o disp_mat (fun p => if p then / 3 else 0)
  /\ (forall d, 2 * total elD (fun p => d p ^ 2) <= total elD (fun p => d p * response val64 elD disp_mat d p)).
Proof.
  destruct (seen_inl _ _ _ _ _ _ _ elD_run) as (o & E & A & X1 & X2 & J1 & J2 & C1 & C2 & O & T).
  injection A as A1 A2. exists o.
  assert (BM : by_matrix AD elD disp_mat) by apply matrixD.
  split. { split; [reflexivity|]. split; [exact (matrix_spreads AD finD double_laws elD disp_mat BM)|].
           split; [vm_compute; exact I|]. split; [exact E|]. split; [exact A1|exact A2]. }
  split. { intros p _. unfold finD. assert (X : o_offset o = mk64 (S754_zero false)) by (rewrite <- O; symmetry; apply mk_of_raw).
           rewrite X. destruct p.
           - rewrite <- (mk_of_raw (o_x o true)), X1. vm_compute. exact I.
           - rewrite <- (mk_of_raw (o_x o false)), X2. vm_compute. exact I. }
  split. { intros n H. apply (countD None None n H). }
  split. { cbn [aeq AD]. rewrite T. reflexivity. }
  split. { intros Fx Q. discriminate. }
  split; [exact BM|].
  split. { intros p _ Ac. destruct p; [rewrite C1 in Ac; discriminate|]. unfold press, val64. rewrite J2. reflexivity. }
  split. { split; [left; reflexivity|split; reflexivity]. }
  split; [exact C1|].
  split. { unfold press, val64. rewrite J1. cbn [fst]. rewrite num_small.
           change (Z.pow_pos 2 54) with 18014398509481984%Z. reflexivity. }
  split; [exact (elD_exact o O)|].
  intro d. unfold total. cbn [elD cfgD k_pts map fold_right]. rewrite !(elD_response d).
  pose proof (pow2_ge_0 (d true + d false)). lra.
Qed.
(** Given load. *)
Example C88_load_nonvacuous : exists o, frun AD loadD 4 = inl o /\ o_success o = true
  /\ k_ext loadD = Some (dbl 1 (-2)) /\ finD (k_thermotol loadD) /\ press val64 o true = / 4.
Proof.
  destruct (seen_inl _ _ _ _ _ _ _ loadD_run) as (o & E & A & X1 & X2 & J1 & J2 & C1 & C2 & O & T).
  injection A as A1 A2. exists o. split; [exact E|]. split; [exact A1|]. split; [reflexivity|].
  split; [vm_compute; exact I|]. unfold press, val64. rewrite J1. cbn [fst]. rewrite num_small.
  change (Z.pow_pos 2 54) with 18014398509481984%Z. lra.
Qed.
