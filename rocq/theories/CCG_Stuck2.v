(** * A run that loses all contact: two rows of points *)
From Coq Require Import Reals Lra List Bool Arith Lia FunctionalExtensionality.
From Verif Require Import CCG_Model CCG_Real CCG_Spec CCG_Proofs CCG_Conv CCG_Results CCG_Results2 CCG_Returns CCG_FiniteRun CCG_Stuck.
Import ListNotations.
Local Open Scope R_scope.

Lemma step_stays tau f d g : f < 0 -> f + tau * d < 0 -> projected_step tau f d g = f + tau * d.
Proof. intros A B. unfold projected_step. cbv zeta. destruct (Rlt_dec f 0); [|lra]. destruct (Rlt_dec _ 0); [reflexivity|lra]. Qed.
Lemma step_leaves tau f d g : f < 0 -> 0 <= f + tau * d -> 0 <= g -> projected_step tau f d g = 0.
Proof.
  intros A B G. unfold projected_step. cbv zeta. destruct (Rlt_dec f 0); [|lra]. destruct (Rlt_dec _ 0); [lra|].
  destruct (Rlt_dec g 0); [lra|reflexivity].
Qed.

Section TwoRows.
  Context {P : Type}.
  Local Notation K := (ROps P).
  Variable c : @cfg R P.
  Variable row : P -> bool.
  Variable U : R.
  Definition two (a b : R) (p : P) : R := if row p then b else a.
  Hypothesis El : elastic c.
  Hypothesis He : offset_control c.
  Hypothesis Cov : covers c.
  Hypothesis Up : 0 < U.
  Hypothesis Off : c_offset c = 0.
  Hypothesis U0 : c_u0 c = None.
  Hypothesis F0 : c_f0 c = None.
  Hypothesis Surf : forall p, on_surface c p.
  Hypothesis Ht : forall p, c_h c p = two (-4) 3 p.
  Hypothesis Fo : forall a b, c_force c (two a b) = two (- (U / 32) * (9 * a + 7 * b)) (- (U / 32) * (7 * a + 9 * b)).
  Hypothesis Di : forall a b, c_disp c (two a b) = two (- (9 * a - 7 * b) / U) (- (9 * b - 7 * a) / U).
  Hypothesis Su : forall a b, lsum (grid c) (two a b) = 2 * a + 2 * b.
  Hypothesis Lo : exists p, row p = false.

  Lemma tw p : comp c p = true. Proof. apply comp_spec, Surf. Qed.
  Lemma sum_two phi a b : (forall p, phi p = two a b p) -> rsum K (c_ranks c) phi = 2 * a + 2 * b.
  Proof. intros H. rewrite rsum_lsum. fold (grid c). rewrite (lsum_ext _ phi (two a b)) by auto. apply Su. Qed.

  Lemma start : let s := init_state K c in
    s_f s = two (- (21 / 32) * U) (- (27 / 32) * U) /\ s_u s = two 0 3 /\ s_t s = two 0 0 /\ s_delta s = false /\ s_off s = 0.
  Proof.
    unfold init_state. cbn [s_f s_u s_t s_delta s_off]. rewrite U0, F0, Off. cbn [mat ROps oadd o0 oltb].
    assert (E : (fun p => if comp c p then if Rltb 0 (c_h c p + 0) then c_h c p + 0 else 0 else 0) = two 0 3).
    { apply functional_extensionality. intros p. rewrite tw, Ht. unfold two, Rltb. destruct (row p); destruct (Rlt_dec _ _); lra. }
    rewrite E, Fo. split; [|split; [reflexivity|split; [|auto]]].
    - apply functional_extensionality. intros p. unfold pad. rewrite tw. cbn [negb]. unfold two. destruct (row p); field.
    - apply functional_extensionality. intros p. unfold two. destruct (row p); reflexivity.
  Qed.

  Section Step.
    Variable s : @state R P.
    Variables f0 f1 u0 u1 t0 t1 : R.
    Hypothesis N0 : f0 < 0.
    Hypothesis N1 : f1 < 0.
    Hypothesis Sf : s_f s = two f0 f1.
    Hypothesis Su' : s_u s = two u0 u1.
    Hypothesis So : s_off s = 0.
    Let g0 := u0 + 4.
    Let g1 := u1 - 3.
    Hypothesis St : forall p, (if s_delta s && Rltb 0 (s_Gold s)
       then two g0 g1 p + (2 * (g0 * g0) + 2 * (g1 * g1)) / s_Gold s * s_t s p else two g0 g1 p) = two t0 t1 p.
    Let y := (9 * t0 - 7 * t1) * t0 + (9 * t1 - 7 * t0) * t1.
    Hypothesis Yp : 0 < y.

    Lemma st_cg p : cg_set K c s p = true.
    Proof. rewrite elastic_cg_set by auto. apply Rltb_true. rewrite Sf. unfold two. destruct (row p); assumption. Qed.
    Lemma st_count : Nat.ltb O (rcount (c_ranks c) (cg_set K c s)) = true.
    Proof.
      destruct (Nat.ltb O _) eqn:E; [reflexivity|]. exfalso. destruct Lo as [p _].
      pose proof (proj1 (rcount_zero _ _) E p (Cov p)). rewrite st_cg in H. discriminate.
    Qed.
    Lemma st_g p : h_g (cg_half K c s) p = two g0 g1 p.
    Proof. rewrite cg_half_g, cg_half_off. unfold offset_control in He. rewrite He, So, Su', Ht. unfold two, g0, g1. destruct (row p); lra. Qed.
    Lemma st_G : rsum K (c_ranks c) (fun p => bmul K (comp c p)
          (bmul K (cg_set K c s p) (h_g (cg_half K c s) p * h_g (cg_half K c s) p))) = 2 * (g0 * g0) + 2 * (g1 * g1).
    Proof. apply sum_two. intros p. rewrite tw, st_cg, st_g. unfold bmul, two. destruct (row p); reflexivity. Qed.
    Lemma st_t : h_t (cg_half K c s) = two t0 t1.
    Proof.
      apply functional_extensionality. intros p. rewrite cg_half_t, tw, st_cg, st_G, !st_g. unfold bmul. apply St.
    Qed.
    Lemma st_x : cg_x c s = 2 * y / U.
    Proof.
      unfold cg_x. rewrite st_t, Di. rewrite (sum_two _ (- (9 * t0 - 7 * t1) / U * t0) (- (9 * t1 - 7 * t0) / U * t1)).
      - unfold y. field. lra.
      - intros p. rewrite st_cg. unfold bmul, two. destruct (row p); reflexivity.
    Qed.
    Lemma st_pos : Rltb 0 (cg_x c s) = true.
    Proof. apply Rltb_true. rewrite st_x. apply Rdiv_lt_0_compat; lra. Qed.
    Lemma st_tau : h_tau (cg_half K c s) = U * ((g0 * t0 + g1 * t1) / y).
    Proof.
      rewrite cg_half_tau, st_count, st_pos, st_x, (sum_two _ (g0 * t0) (g1 * t1)).
      - field. lra.
      - intros p. rewrite tw, st_cg, st_g, st_t. unfold bmul, two. destruct (row p); reflexivity.
    Qed.
    Lemma st_hG : h_G (cg_half K c s) = 2 * (g0 * g0) + 2 * (g1 * g1).
    Proof. rewrite cg_half_G. cbv zeta. rewrite st_count, st_pos. apply st_G. Qed.

    (** Outcome of the iteration. *)
    Lemma st_iter : exists fu, iter K c s = Ok fu /\
      s_t (fu_state fu) = two t0 t1 /\ s_off (fu_state fu) = 0 /\ s_Gold (fu_state fu) = 2 * (g0 * g0) + 2 * (g1 * g1) /\
      s_u (fu_state fu) = c_disp c (s_f (fu_state fu)) /\
      (forall p, s_f (fu_state fu) p = projected_step (U * ((g0 * t0 + g1 * t1) / y)) (two f0 f1 p) (two t0 t1 p) (two g0 g1 p)) /\
      ((forall p, 0 <= two f0 f1 p + U * ((g0 * t0 + g1 * t1) / y) * two t0 t1 p -> 0 <= two g0 g1 p) -> s_delta (fu_state fu) = true).
    Proof.
      destruct (iter_returns c s (or_introl El)) as [fu Hi]. exists fu. split; [exact Hi|].
      pose proof Hi as Hi'. apply iter_inv in Hi'.
      destruct Hi' as (h&mp&Hf&_&_&Hn&Hu&Htt&Ho&_&_&_&_&_&Hd&_&H2).
      apply (elastic_first c s h El) in Hf. subst h.
      split; [rewrite Htt; exact st_t|]. split; [rewrite Ho, cg_half_off; unfold offset_control in He; rewrite He; exact So|].
      split.
      { unfold second_half in H2. destruct (max_pres K c (cg_half K c s)); [|discriminate]. injection H2 as <-. cbn [fu_state s_Gold].
        unfold new_G. rewrite cg_half_str. exact st_hG. }
      split; [rewrite Hu, Hn; reflexivity|]. split.
      - intros p. rewrite (step_force c El He s fu p Cov Hi (Surf p)) by congruence.
        rewrite st_tau, Sf, st_t. f_equal. unfold iterate_gap. rewrite Su', Off, Ht. unfold two, g0, g1. destruct (row p); lra.
      - intros Q. rewrite Hd. unfold new_delta. rewrite cg_half_str.
        assert (A : any_nc K c (cg_half K c s) = false); [|rewrite A; reflexivity].
        unfold any_nc. apply rcount_zero. intros p _. unfold nc_set, mask_tensile, mask_flowing.
        pose proof El as El'. unfold elastic in El'. rewrite El', tw, st_g. cbn [andb]. rewrite orb_false_r.
        destruct (leb K (o0 K) (h_f (cg_half K c s) p)) eqn:E; [|reflexivity]. apply leb_true in E. cbn [andb].
        apply Rltb_false. apply Q. rewrite cg_half_f, st_cg, st_tau, st_t, Sf in E. exact E.
    Qed.
  End Step.

  Lemma two_iterations : c_pentol c <= 4 -> exists r, ccg c 2 = Ok r /\ x_success r = false /\ forall p, x_jac r p = 0.
  Proof.
    intros Pt. destruct start as (S1&S2&S3&S4&S5). set (s := init_state K c) in *.
    destruct (st_iter s (- (21 / 32) * U) (- (27 / 32) * U) 0 3 4 0) as (fu&Hi&A1&A2&A3&A4&A5&A6); auto; try lra.
    { intros p. rewrite S4. cbn [andb]. unfold two. destruct (row p); lra. }
    assert (Af : s_f (fu_state fu) = two (- (61 / 288) * U) (- (27 / 32) * U)).
    { apply functional_extensionality. intros p. rewrite A5.
      replace (U * (((0 + 4) * 4 + (3 - 3) * 0) / ((9 * 4 - 7 * 0) * 4 + (9 * 0 - 7 * 4) * 0))) with (U / 9) by field.
      rewrite step_stays; unfold two; destruct (row p); lra. }
    assert (Ad : s_delta (fu_state fu) = true).
    { apply A6. intros p. replace (U * (((0 + 4) * 4 + (3 - 3) * 0) / ((9 * 4 - 7 * 0) * 4 + (9 * 0 - 7 * 4) * 0))) with (U / 9) by field.
      unfold two. destruct (row p); intros; lra. }
    assert (Au : s_u (fu_state fu) = two (-4) (55 / 9)).
    { rewrite A4, Af, Di. apply functional_extensionality. intros p. unfold two. destruct (row p); field; lra. }
    assert (E1 : after c 1 = Ok (fu_state fu)) by (cbn [after]; fold s; rewrite Hi; reflexivity).
    assert (C1 : fu_conv fu = false).
    { destruct (fu_conv fu) eqn:Q; [exfalso|reflexivity]. pose proof Hi as Hi'. apply iter_inv in Hi'.
      destruct Hi' as (h&mp&_&_&_&_&Hu&_&_&_&_&_&_&_&_&_&H2).
      destruct (conv_inv c s h fu H2 Q) as (mp'&_&_&_&H&_). destruct Lo as [p Hp]. specialize (H p (Cov p)).
      rewrite <- Hu, Au, S2 in H. unfold two in H. rewrite Hp in H. replace (-4 - 0) with (- (4)) in H by lra.
      rewrite Rabs_Ropp, Rabs_right in H; lra. }
    destruct (st_iter (fu_state fu) (- (61 / 288) * U) (- (27 / 32) * U) (-4) (55 / 9) (196 / 81) (252 / 81)) as (fv&Hj&B1&B2&B3&B4&B5&B6); auto; try lra.
    { intros p. rewrite Ad, A3, A1. assert (L : Rltb 0 (2 * ((0 + 4) * (0 + 4)) + 2 * ((3 - 3) * (3 - 3))) = true) by (apply Rltb_true; lra).
      rewrite L. cbn [andb]. unfold two. destruct (row p); field. }
    assert (Z : forall p, s_f (fu_state fv) p = 0).
    { intros p. rewrite B5. match goal with |- projected_step ?q _ _ _ = _ => replace q with (U * (9 / 32)) by field end.
      apply step_leaves; unfold two; destruct (row p); lra. }
    assert (C2 : fu_conv fv = false) by (apply (later_total c El He 1 (fu_state fu) fv); auto).
    destruct (fails c El 2 ltac:(lia)) as (r&s2&R1&R2&R3&_&R5&_).
    - intros j sj fw Hj' Ha Hw. destruct j as [|[|j]]; [| |lia].
      + cbn [after] in Ha. injection Ha as <-. fold s in Hw. congruence.
      + assert (sj = fu_state fu) by congruence. subst sj. congruence.
    - exists r. split; [exact R1|]. split; [exact R3|]. intros p. rewrite R5.
      assert (E2 : after c 2 = Ok (fu_state fv)).
      { change (after c 2) with (match after c 1 with Raise e => Raise e | Ok s => match iter K c s with Raise e => Raise e | Ok fu => Ok (fu_state fu) end end).
        rewrite E1, Hj. reflexivity. }
      assert (s2 = fu_state fv) by congruence. subst s2. rewrite Z. lra.
  Qed.
End TwoRows.
