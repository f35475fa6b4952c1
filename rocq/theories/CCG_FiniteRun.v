(** * Runs whose contact area settles: from the iterates to the returned result *)
From Coq Require Import Reals Lra List Bool Arith Lia FunctionalExtensionality.
From Verif Require Import CCG_Model CCG_Real CCG_Spec CCG_Proofs CCG_Conv CCG_Results CCG_Results2 CCG_Returns CG_Base CCG_Finite.
Import ListNotations.
Local Open Scope R_scope.

(** Specification: the iterates number [k], ..., [k+m] press on the same points
    [C], and the iterations that lead to the later ones end with status "cg"
    (no penetrating point was found). *)
Definition settled {P} (c : @cfg R P) (k m : nat) (C : P -> bool) : Prop :=
  forall i, (i <= m)%nat -> exists s, after c (k + i) = Ok s /\
    (forall p, s_f s p < 0 <-> C p = true) /\ ((1 <= i)%nat -> s_str s = Cg).
(** The status of iterate [k] is not "cg" (the start, or an iteration that added
    penetrating points), so that the next direction starts afresh; it has no
    tension, and its displacements belong to its forces. *)
Definition restarted {P} (c : @cfg R P) (k : nat) : Prop :=
  exists s, after c k = Ok s /\ s_str s <> Cg /\ (forall p, s_f s p <= 0) /\
    s_u s = c_disp c (s_f s).
(** Gap of an iterate at the offset of the call. *)
Definition iterate_gap {P} (c : @cfg R P) (s : @state R P) (p : P) : R :=
  s_u s p - c_h c p - c_offset c.

Section Run.
  Context {P : Type}.
  Local Notation K := (ROps P).
  Variable c : @cfg R P.
  Hypothesis El : elastic c.
  Hypothesis He : offset_control c.

  Lemma after_more k s : after c k = Ok s -> (1 <= k)%nat ->
    s_off s = c_offset c /\ s_nit s = k /\ s_lasttf s = Some (tot_force c (s_f s)) /\
    (s_str s = Cg -> forall p, s_f s p <= 0) /\ (s_str s <> Cg -> s_delta s = false).
  Proof.
    assert (A0 : forall k s, after c k = Ok s -> s_off s = c_offset c /\ s_nit s = k).
    { clear k s. induction k as [|k IH]; intros s H; simpl in H.
      - injection H as <-. auto.
      - destruct (after c k) as [s0|] eqn:E; [|discriminate].
        destruct (iter K c s0) as [fu|] eqn:Ei; [|discriminate]. injection H as <-.
        destruct (IH s0 eq_refl) as [I1 I2].
        apply iter_inv in Ei. destruct Ei as (h&mp&Hf&_&_&_&_&_&Ho&_&_&Hn&_).
        rewrite Ho, Hn, I2. split; auto. rewrite <- I1. apply (first_half_off c s0 h He Hf). }
    intros H Hk. destruct (A0 k s H) as [I1 I2]. split; [auto|split; [auto|]].
    destruct k as [|k]; [lia|]. simpl in H.
    destruct (after c k) as [s0|] eqn:E; [|discriminate].
    destruct (iter K c s0) as [fu|] eqn:Ei; [|discriminate]. injection H as <-.
    unfold iter, first_half in Ei. pose proof El as El'. unfold elastic in El'. rewrite El' in Ei.
    unfold second_half in Ei. destruct (max_pres K c (cg_half K c s0)) as [mp|]; [|discriminate].
    injection Ei as <-. cbn [fu_state s_lasttf s_f s_str s_delta].
    repeat split.
    - cbn [ROps oopp]. unfold tot_force, grid. rewrite rsum_lsum. reflexivity.
    - unfold new_str. rewrite cg_half_str. destruct (any_nc K c (cg_half K c s0)) eqn:En; [discriminate|].
      intros _ p. rewrite elastic_new_force, adjust_force_unfold by (auto using cg_half_str).
      unfold offset_control in He. rewrite He. apply clip_tensile_nonpos.
    - unfold new_str, new_delta. rewrite cg_half_str. destruct (any_nc K c (cg_half K c s0)); [reflexivity|].
      intros N. now elim N.
  Qed.

  Lemma after_start k s : after c k = Ok s ->
    pad_inv c s /\ s_off s = c_offset c /\ (s_str s <> Cg -> s_delta s = false).
  Proof.
    intros H. destruct k as [|k].
    - injection H as <-. split; [apply pad_inv_init|auto].
    - destruct (after_inv c (S k) s (elastic_hard c El) H ltac:(lia)) as [H1 _].
      destruct (after_more (S k) s H ltac:(lia)) as (H2&_&_&_&H3). auto.
  Qed.
  Lemma restart_later k s : (1 <= k)%nat -> after c k = Ok s -> s_str s <> Cg -> (forall p, s_f s p <= 0) ->
    restarted c k.
  Proof.
    intros Hk H Hs Hn. exists s. repeat (split; auto). apply (after_inv c k s (elastic_hard c El) H Hk).
  Qed.

  (** The loop stops at the latest at an iteration whose tests pass. *)
  Fixpoint iterates (j : nat) (s : @state R P) : result (@state R P) :=
    match j with
    | O => Ok s
    | S j => match iter K c s with
             | Ok fu => iterates j (fu_state fu)
             | Raise e => Raise e
             end
    end.
  Lemma after_iterates j : forall k s, after c k = Ok s -> after c (j + k) = iterates j s.
  Proof.
    induction j as [|j IH]; intros k s H; [exact H|].
    cbn [iterates]. replace (S j + k)%nat with (j + S k)%nat by lia.
    assert (E : after c (S k) = match iter K c s with Ok fu => Ok (fu_state fu) | Raise e => Raise e end).
    { cbn [after]. rewrite H. reflexivity. }
    destruct (iter K c s) as [fu|e].
    - apply IH. exact E.
    - clear IH H. induction j as [|j IHj]; [exact E|].
      replace (S j + S k)%nat with (S (j + S k)) by lia. cbn [after]. rewrite IHj. reflexivity.
  Qed.
  Lemma loop_stops n j : forall s last fuel sj fu, iterates j s = Ok sj -> iter K c sj = Ok fu ->
    fu_conv fu = true -> (j < fuel)%nat ->
    exists r, snd (loop K c n fuel s last) = Ok r /\ x_success r = true /\ (x_nit r <= s_nit s + S j)%nat.
  Proof.
    induction j as [|j IH]; intros s last fuel sj fu Hj Hi Hc Hf; (destruct fuel as [|fuel]; [lia|]); cbn [loop iterates] in *.
    - injection Hj as ->. rewrite Hi, Hc. eexists. split; [reflexivity|]. split; [reflexivity|].
      cbn [snd converged_result x_nit]. apply iter_inv in Hi.
      destruct Hi as (h&mp&_&_&_&_&_&_&_&_&_&Hn&_). rewrite Hn. lia.
    - destruct (iter K c s) as [fu0|] eqn:E0; [|discriminate].
      assert (Hn0 : s_nit (fu_state fu0) = S (s_nit s)).
      { apply iter_inv in E0. destruct E0 as (h&mp&_&_&_&_&_&_&_&_&_&Hn&_). exact Hn. }
      destruct (fu_conv fu0).
      + eexists. split; [reflexivity|]. split; [reflexivity|]. cbn [snd converged_result x_nit]. lia.
      + destruct (IH (fu_state fu0) (Some fu0) fuel sj fu Hj Hi Hc ltac:(lia)) as (r&H1&H2&H3).
        destruct (loop K c n fuel (fu_state fu0) (Some fu0)) as [evs o]. cbn [snd] in *.
        exists r. split; [auto|split; [auto|lia]].
  Qed.
  Lemma stops n j s fu : after c j = Ok s -> iter K c s = Ok fu -> fu_conv fu = true -> (j < n)%nat ->
    exists r, ccg c n = Ok r /\ x_success r = true /\ (x_nit r <= S j)%nat.
  Proof.
    intros Ha Hi Hc Hn. pose proof (after_iterates j 0 _ eq_refl) as E. rewrite Nat.add_0_r, Ha in E.
    destruct (loop_stops n j (init_state K c) None n s fu (eq_sym E) Hi Hc Hn) as (r&H1&H2&H3).
    exists r. auto.
  Qed.

  Section Settled.
    Hypothesis Li : linear (c_disp c).
    Hypothesis Sa : self_adjoint (grid c) (c_disp c).
    Hypothesis Co : compliant (grid c) (c_disp c).
    Hypothesis Cov : covers c.
    Variable C : P -> bool.
    Variables k m : nat.
    Hypothesis Hre : restarted c k.
    Hypothesis Hse : settled c k m C.

    Definition st_at (i : nat) : @state R P :=
      match after c (k + i) with Ok s => s | Raise _ => init_state K c end.
    Lemma st_at_ok i : (i <= m)%nat -> after c (k + i) = Ok (st_at i).
    Proof. intros Hi. destruct (Hse i Hi) as (s&H&_). unfold st_at. rewrite H. reflexivity. Qed.
    Lemma st_at_eq i s : after c (k + i) = Ok s -> st_at i = s.
    Proof. unfold st_at. intros ->. reflexivity. Qed.
    Lemma st_good i : (i <= m)%nat -> good c C (st_at i).
    Proof.
      intros Hi. pose proof (st_at_ok i Hi) as Ha.
      destruct (Hse i Hi) as (s&Hs&Hin&Hcg). pose proof (st_at_eq i s Hs) as Es. rewrite Es in *.
      destruct i as [|i].
      - destruct Hre as (s0&Ha0&_&Hnp&Hu). rewrite Nat.add_0_r in Hs. rewrite Hs in Ha0. injection Ha0 as <-.
        constructor; auto. apply (after_start k s Hs).
      - destruct (after_inv c (k + S i) _ (elastic_hard c El) Ha ltac:(lia)) as [H1 H2].
        destruct (after_more (k + S i) _ Ha ltac:(lia)) as (H3&_&_&H4&_).
        constructor; auto. apply H4, Hcg. lia.
    Qed.
    Lemma st_off i : (i <= m)%nat -> s_off (st_at i) = c_offset c.
    Proof. intros Hi. apply (after_start _ _ (st_at_ok i Hi)). Qed.
    Lemma st_step i : (i < m)%nat -> step c (st_at i) (st_at (S i)).
    Proof.
      intros Hi. pose proof (st_at_ok i ltac:(lia)) as Ha. pose proof (st_at_ok (S i) ltac:(lia)) as Hb.
      split.
      - replace (k + S i)%nat with (S (k + i)) in Hb by lia. cbn [after] in Hb. rewrite Ha in Hb.
        destruct (iter K c (st_at i)) as [fu|]; [|discriminate]. injection Hb as Hb. eauto.
      - destruct (Hse (S i) ltac:(lia)) as (s&Hs&_&Hcg). rewrite (st_at_eq _ _ Hs). apply Hcg. lia.
    Qed.
    Lemma st_restart : s_delta (st_at 0) = false.
    Proof.
      destruct Hre as (s&Ha&Hs&_). rewrite (st_at_eq 0 s) by (rewrite Nat.add_0_r; auto).
      apply (after_start k s Ha); auto.
    Qed.
    Lemma iterate_gap_eq i p : (i <= m)%nat -> iterate_gap c (st_at i) p = gp c (st_at i) p.
    Proof.
      intros Hi. pose proof (st_good i Hi) as G. rewrite (gp_eq c C He _ p G (st_off i Hi)), <- (g_u c C _ G). reflexivity.
    Qed.

    Lemma settled_orthogonal i j si sj : (i < j)%nat -> (j <= m)%nat ->
      after c (k + i) = Ok si -> after c (k + j) = Ok sj ->
      lsum (filter C (grid c)) (fun p => iterate_gap c si p * iterate_gap c sj p) = 0.
    Proof.
      intros Hij Hj Hi' Hj'. rewrite <- (st_at_eq _ _ Hi'), <- (st_at_eq _ _ Hj').
      rewrite <- (off_gaps_orthogonal c El Li Sa Co C He st_at m st_good st_step st_restart st_off Cov i j Hij Hj).
      apply lsum_ext. intros p _. rewrite !iterate_gap_eq by lia. reflexivity.
    Qed.
    Lemma settled_reaches s p : (length (filter C (grid c)) <= m)%nat ->
      after c (k + length (filter C (grid c))) = Ok s -> C p = true -> iterate_gap c s p = 0.
    Proof.
      intros Hm Ha Hp. rewrite <- (st_at_eq _ _ Ha), iterate_gap_eq by auto.
      exact (off_reaches c El Li Sa Co C He st_at m st_good st_step st_restart st_off Cov Hm p Hp).
    Qed.
    Lemma settled_exact s : (length (filter C (grid c)) < m)%nat ->
      after c (k + length (filter C (grid c))) = Ok s ->
      exact_solution c (c_offset c) (fun p => - s_f s p).
    Proof.
      intros Hm Ha. rewrite <- (st_at_eq _ _ Ha).
      exact (off_exact c El Li Sa Co C He st_at m st_good st_step st_restart st_off Cov Hm).
    Qed.
    Lemma settled_stops n : tolerances_positive c -> (exists p, C p = true) ->
      (length (filter C (grid c)) < m)%nat -> (k + length (filter C (grid c)) < n)%nat ->
      exists r, ccg c n = Ok r /\ x_success r = true /\
        (x_nit r <= S (k + length (filter C (grid c))))%nat.
    Proof.
      intros Tol Hne Hm Hn. pose proof (st_at_ok _ (Nat.lt_le_incl _ _ Hm)) as Ha.
      assert (HN : (1 <= length (filter C (grid c)))%nat).
      { destruct Hne as [p Hp]. assert (Hin : In p (filter C (grid c))) by (apply filter_In; auto).
        destruct (filter C (grid c)); [destruct Hin|cbn; lia]. }
      destruct (after_more _ _ Ha ltac:(lia)) as (_&_&Hl&_).
      destruct (off_conv c El Li Sa Co C He st_at m st_good st_step st_restart st_off Cov Tol Hne Hm Hl) as (fu&Hi&Hc).
      apply (stops n _ _ fu Ha Hi Hc Hn).
    Qed.
    (** The complementary energy never grows. *)
    Lemma settled_energy i j si sj : (i <= j)%nat -> (j <= m)%nat ->
      after c (k + i) = Ok si -> after c (k + j) = Ok sj ->
      complementary_energy c (c_offset c) (s_f sj) <= complementary_energy c (c_offset c) (s_f si).
    Proof.
      intros Hij. revert sj. induction Hij as [|j Hij IH]; intros sj Hj Hi' Hj'.
      - rewrite Hi' in Hj'. injection Hj' as <-. lra.
      - pose proof (st_at_ok j ltac:(lia)) as Ha.
        specialize (IH _ ltac:(lia) Hi' Ha). refine (Rle_trans _ _ _ _ IH).
        pose proof (step_force c El C He _ _ (st_good j ltac:(lia)) (st_good (S j) ltac:(lia)) (st_step j Hj)) as Hf.
        rewrite <- (st_at_eq _ _ Hj').
        pose proof (st_good j ltac:(lia)) as G. pose proof (st_off j ltac:(lia)) as Ho. set (s := st_at j) in *.
        replace (s_f (st_at (S j))) with (fun p => s_f s p + h_tau (cg_half K c s) * tt c s p)
          by (apply functional_extensionality; intros; rewrite Hf; reflexivity).
        rewrite ce_line; auto.
        2:{ intros p Hp. apply (tt_out c El C s p G). destruct (C p) eqn:E; auto.
            rewrite (good_comp c C s p G E) in Hp. discriminate. }
        pose proof (tau_eq c El Co C s G) as T.
        assert (E1 : lsum (grid c) (fun p => tt c s p * (c_disp c (s_f s) p - c_h c p - c_offset c)) = dot (cl c C) (gp c s) (tt c s)).
        { rewrite (lsum_cl c C) by (intros p E; rewrite (tt_out c El C s p G E); ring).
          apply lsum_ext. intros p _. rewrite (gp_eq c C He s p G Ho). ring. }
        assert (E2 : lsum (grid c) (fun p => tt c s p * c_disp c (tt c s) p) = dot (cl c C) (c_disp c (tt c s)) (tt c s)).
        { rewrite (lsum_cl c C) by (intros p E; rewrite (tt_out c El C s p G E); ring).
          apply lsum_ext. intros; ring. }
        rewrite E1, E2, <- T.
        assert (W : 0 <= - dot (cl c C) (c_disp c (tt c s)) (tt c s)).
        { rewrite <- E2. destruct (Rlt_dec 0 (cg_x c s)) as [L|L].
          - rewrite (x_eq c El C s G), <- E2 in L. lra.
          - rewrite lsum_zero; [lra|]. intros p Hp. rewrite (x_zero c El Co C s G L p Hp). ring. }
        set (a := - dot (cl c C) (c_disp c (tt c s)) (tt c s)) in *.
        replace (dot (cl c C) (c_disp c (tt c s)) (tt c s)) with (- a) by (unfold a; ring).
        pose proof (Rmult_le_pos _ _ W (Rle_0_sqr (h_tau (cg_half K c s)))). unfold Rsqr in *. lra.
    Qed.
  End Settled.

  (** A run that starts at the solution never leaves it. *)
  Lemma exact_settled q m : covers c -> tolerances_positive c ->
    exact_solution c (c_offset c) q -> (exists p, 0 < q p) ->
    s_f (init_state K c) = (fun p => - q p) -> s_u (init_state K c) = c_disp c (fun p => - q p) ->
    restarted c 0 /\ settled c 0 m (fun p => Rltb 0 (q p)).
  Proof.
    intros Cov Tol Ex Hne Hf Hu.
    assert (Q : forall p, 0 <= q p) by (apply (q_nonneg c q (c_offset c)); auto).
    assert (A : forall i, exists s, after c i = Ok s /\ s_f s = (fun p => - q p) /\
      s_u s = c_disp c (fun p => - q p) /\ ((1 <= i)%nat -> s_str s = Cg)).
    { induction i as [|i (s&Ha&Hsf&Hsu&_)].
      - eexists. split; [reflexivity|]. repeat (split; auto). intros; lia.
      - destruct (after_start i s Ha) as (Hp&Ho&_).
        destruct (ex_iter c q (c_offset c) Cov El Tol Ex s Hsf Hsu) as (fu&H1&_&H3&H4&_&_&H7).
        + intros p E. apply (Hp p E).
        + rewrite cg_half_off. unfold offset_control in He. rewrite He. exact Ho.
        + intros Fx E. unfold offset_control in He. congruence.
        + destruct i as [|i]; [injection Ha as <-; left; reflexivity|]. right.
          destruct (after_more _ _ Ha ltac:(lia)) as (_&_&Hl&_). rewrite Hl, Hsf. split; [reflexivity|].
          unfold tot_force. destruct Hne as [p Hp0]. intros Hz.
          assert (Hs : lsum (grid c) (fun p => - bmul K (comp c p) (- q p)) = 0) by (rewrite lsum_opp; auto).
          assert (Hc : comp c p = true).
          { destruct (comp c p) eqn:E; auto. apply comp_false in E. destruct Ex as [E1 _].
            rewrite (E1 p (Cov p) E) in Hp0. lra. }
          assert (Hq : - bmul K (comp c p) (- q p) = 0).
          { apply (lsum_nonneg_eq0 (grid c) (fun p => - bmul K (comp c p) (- q p))); auto.
            intros r _. cbv beta. pose proof (Q r). unfold bmul. destruct (comp c r); cbn; lra. }
          rewrite Hc in Hq. unfold bmul in Hq. lra.
        + right; left. exact He.
        + exists (fu_state fu). cbn [after]. rewrite Ha, H1. auto. }
    split.
    - exists (init_state K c). split; [reflexivity|]. split; [discriminate|]. rewrite Hf, Hu. split; auto.
      intros p. pose proof (Q p). lra.
    - intros i _. destruct (A i) as (s&Ha&Hsf&_&Hc). exists s. split; [exact Ha|]. split; [|exact Hc].
      intros p. rewrite Hsf, Rltb_true. lra.
  Qed.
End Run.
