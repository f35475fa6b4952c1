(** * Iterations during which the contact area does not change
    Proofs for the finite-termination theorems: at a fixed rigid-body offset
    the iterations of lines 242-500 of Optimization.py are conjugate gradient
    steps on the points in contact as long as that set does not change. *)
From Coq Require Import Reals Lra List Bool Arith Lia FunctionalExtensionality.
From Verif Require Import CCG_Model CCG_Real CCG_Spec CCG_Proofs CCG_Conv CCG_Results CCG_Results2 CCG_Returns CG_Base.
Import ListNotations.
Local Open Scope R_scope.

Section Finite.
  Context {P : Type}.
  Local Notation K := (ROps P).
  Variable c : @cfg R P.
  Hypothesis El : elastic c.
  Hypothesis Li : linear (c_disp c).
  Hypothesis Sa : self_adjoint (grid c) (c_disp c).
  Hypothesis Co : compliant (grid c) (c_disp c).
  Variable C : P -> bool.
  Definition cl : list P := filter C (grid c).
  Definition gp (s : @state R P) : P -> R := h_g (cg_half K c s).
  Definition tt (s : @state R P) : P -> R := h_t (cg_half K c s).

  (** A state with contact area [C] and no tension. *)
  Record good (s : @state R P) : Prop := {
    g_pad : pad_inv c s;
    g_u : s_u s = c_disp c (s_f s);
    g_in : forall p, s_f s p < 0 <-> C p = true;
    g_np : forall p, s_f s p <= 0 }.

  Lemma good_cg s : good s -> cg_set K c s = C.
  Proof.
    intros G. apply functional_extensionality. intros p. rewrite elastic_cg_set by auto.
    destruct (C p) eqn:E.
    - apply Rltb_true. now apply G.
    - apply Rltb_false. apply Rnot_lt_le. intros H. apply (g_in s G) in H. congruence.
  Qed.
  Lemma good_out s p : good s -> C p = false -> s_f s p = 0.
  Proof.
    intros G E. apply Rle_antisym; [apply G|]. apply Rnot_lt_le. intros H.
    apply (g_in s G) in H. congruence.
  Qed.
  Lemma good_comp s p : good s -> C p = true -> comp c p = true.
  Proof.
    intros G E. destruct (comp c p) eqn:Ec; auto. apply (g_in s G) in E.
    destruct (g_pad s G p Ec) as [Hf _]. lra.
  Qed.
  Lemma gp_half s p : good s -> gp s p = c_disp c (s_f s) p - c_h c p - h_off (cg_half K c s).
  Proof. intros G. unfold gp. rewrite cg_half_g, (g_u s G). reflexivity. Qed.
  Lemma tt_out s p : good s -> C p = false -> tt s p = 0.
  Proof.
    intros G E. unfold tt. rewrite cg_half_t, (good_cg s G), E.
    destruct (comp c p) eqn:Ec; [reflexivity|]. apply (g_pad s G p Ec).
  Qed.
  Lemma cl_in p : In p cl <-> In p (grid c) /\ C p = true.
  Proof. apply filter_In. Qed.
  Lemma lsum_cl phi : (forall p, C p = false -> phi p = 0) -> lsum (grid c) phi = lsum cl phi.
  Proof.
    intros H. unfold cl. rewrite lsum_filter. apply lsum_ext. intros p _.
    destruct (C p) eqn:E; auto.
  Qed.
  Lemma g2_eq s : good s -> rsum K (c_ranks c) (fun p => bmul K (comp c p)
      (bmul K (cg_set K c s p) (gp s p * gp s p))) = dot cl (gp s) (gp s).
  Proof.
    intros G. rewrite rsum_lsum. fold (grid c). rewrite (good_cg s G).
    unfold dot. rewrite lsum_cl.
    - apply lsum_ext. intros p Hp. apply cl_in in Hp. destruct Hp as [_ Hp].
      rewrite (good_comp s p G Hp), Hp. reflexivity.
    - intros p E. rewrite E. unfold bmul. destruct (comp c p); reflexivity.
  Qed.
  Lemma tt_in s p : good s -> C p = true -> tt s p =
    if s_delta s && Rltb 0 (s_Gold s)
    then gp s p + dot cl (gp s) (gp s) / s_Gold s * s_t s p else gp s p.
  Proof.
    intros G E. unfold tt. rewrite cg_half_t, (good_comp s p G E). fold (gp s).
    rewrite (g2_eq s G), (good_cg s G), E. reflexivity.
  Qed.
  Lemma x_eq s : good s -> cg_x c s = - dot cl (c_disp c (tt s)) (tt s).
  Proof.
    intros G. unfold cg_x. fold (tt s). rewrite rsum_lsum. fold (grid c). f_equal.
    rewrite (good_cg s G). unfold dot. rewrite lsum_cl.
    - apply lsum_ext. intros p Hp. apply cl_in in Hp. destruct Hp as [_ ->]. reflexivity.
    - intros p E. rewrite E. reflexivity.
  Qed.
  Lemma x_zero s : good s -> ~ 0 < cg_x c s -> forall p, In p (grid c) -> tt s p = 0.
  Proof.
    intros G H p Hp. destruct (Req_dec (tt s p) 0) as [|N]; auto. exfalso. apply H.
    rewrite (x_eq s G). unfold dot. rewrite <- lsum_cl.
    - rewrite (lsum_ext _ _ (fun p => tt s p * c_disp c (tt s) p)) by (intros; ring).
      apply Co. eauto.
    - intros r E. rewrite (tt_out s r G E). ring.
  Qed.
  Lemma tau_eq s : good s ->
    h_tau (cg_half K c s) * (- dot cl (c_disp c (tt s)) (tt s)) = dot cl (gp s) (tt s).
  Proof.
    intros G. rewrite <- (x_eq s G), cg_half_tau.
    assert (HA : rsum K (c_ranks c) (fun p => bmul K (comp c p)
          (bmul K (cg_set K c s p) (h_g (cg_half K c s) p * h_t (cg_half K c s) p)))
          = dot cl (gp s) (tt s)).
    { fold (gp s). fold (tt s). rewrite rsum_lsum. fold (grid c). rewrite (good_cg s G).
      unfold dot. rewrite lsum_cl.
      - apply lsum_ext. intros p Hp. apply cl_in in Hp. destruct Hp as [_ Hp].
        rewrite (good_comp s p G Hp), Hp. reflexivity.
      - intros p E. rewrite E. unfold bmul. destruct (comp c p); reflexivity. }
    rewrite HA.
    destruct (Rltb 0 (cg_x c s)) eqn:Ex.
    - apply Rltb_true in Ex.
      assert (Hc : Nat.ltb O (rcount (c_ranks c) (cg_set K c s)) = true).
      { destruct (Nat.ltb _ _) eqn:Ec; auto. rewrite rcount_zero in Ec.
        exfalso. apply (Rlt_irrefl 0). apply (Rlt_le_trans _ _ _ Ex). right.
        unfold cg_x. rewrite rsum_lsum, lsum_zero; [lra|]. intros p Hp. rewrite (Ec p Hp). reflexivity. }
      rewrite Hc. field. lra.
    - apply Rltb_false in Ex.
      assert (Hz : dot cl (gp s) (tt s) = 0).
      { apply lsum_zero. intros p Hp. apply cl_in in Hp. destruct Hp as [Hp _].
        rewrite (x_zero s G); [ring|lra|auto]. }
      rewrite Hz. destruct (Nat.ltb _ _); lra.
  Qed.

  Lemma tt_sym s s' : good s -> good s' ->
    dot cl (c_disp c (tt s)) (tt s') = dot cl (c_disp c (tt s')) (tt s).
  Proof.
    intros G G'. unfold dot. rewrite <- !lsum_cl.
    - rewrite (lsum_ext _ _ (fun p => tt s' p * c_disp c (tt s) p)) by (intros; ring).
      rewrite (Sa (tt s') (tt s)). apply lsum_ext. intros; ring.
    - intros p E. rewrite (tt_out s p G E). ring.
    - intros p E. rewrite (tt_out s' p G' E). ring.
  Qed.
  Lemma disp_tt0 s p : (forall r, tt s r = 0) -> c_disp c (tt s) p = 0.
  Proof.
    intros H. replace (tt s) with (fun _ : P => 0 * 0).
    - destruct Li as [_ Ls]. rewrite (Ls 0 (fun _ => 0)). ring.
    - apply functional_extensionality. intros r. rewrite H. ring.
  Qed.

  (** One iteration from a good state to a good state without a restart. *)
  Record step (s s' : @state R P) : Prop := {
    st_iter : exists fu, iter K c s = Ok fu /\ fu_state fu = s';
    st_str : s_str s' = Cg }.

  Lemma step_facts s s' : good s -> good s' -> step s s' ->
    s_f s' = adjust_force K c (clip_tensile K (cg_half K c s)) /\
    s_delta s' = true /\ s_t s' = tt s /\ s_Gold s' = h_G (cg_half K c s) /\
    any_nc K c (cg_half K c s) = false.
  Proof.
    intros G G' [[fu [Hi <-]] Hstr].
    unfold iter, first_half in Hi. pose proof El as El'. unfold elastic in El'. rewrite El' in Hi.
    unfold second_half in Hi. destruct (max_pres K c (cg_half K c s)) as [mp|] eqn:Em; [|discriminate].
    injection Hi as <-. cbn [fu_state s_f s_delta s_t s_Gold s_str] in *.
    assert (Hnc : any_nc K c (cg_half K c s) = false).
    { unfold new_str in Hstr. rewrite cg_half_str in Hstr. destruct (any_nc K c (cg_half K c s)); [discriminate|auto]. }
    split; [|split; [|split; [|split]]]; auto.
    - apply functional_extensionality. intros p. now rewrite elastic_new_force by (auto using cg_half_str).
    - unfold new_delta. rewrite cg_half_str, Hnc. reflexivity.
    - unfold new_G. rewrite cg_half_str. reflexivity.
  Qed.
  (** Where the constrained forces press, nothing was clipped. *)
  Lemma no_clip s p : good s -> clip_tensile K (cg_half K c s) p < 0 \/ C p = false ->
    clip_tensile K (cg_half K c s) p = s_f s p + h_tau (cg_half K c s) * tt s p.
  Proof.
    intros G. destruct (C p) eqn:E; intros H.
    - destruct H as [H|H]; [|discriminate].
      destruct (clip_tensile_cases (cg_half K c s) p) as [[H1 H2]|[H1 H2]]; rewrite H2 in *; [|lra].
      rewrite cg_half_f, (good_cg s G), E. reflexivity.
    - rewrite (tt_out s p G E), (good_out s p G E).
      assert (Hf : h_f (cg_half K c s) p = 0).
      { rewrite cg_half_f, (good_cg s G), E, (good_out s p G E). unfold bmul. simpl. lra. }
      destruct (clip_tensile_cases (cg_half K c s) p) as [[H1 H2]|[H1 H2]]; rewrite H2; lra.
  Qed.

  (** ** Sequences of such iterations *)
  Section Seq.
    Variable st : nat -> @state R P.
    Variable m : nat.
    Hypothesis Hgood : forall i, (i <= m)%nat -> good (st i).
    Hypothesis Hstep : forall i, (i < m)%nat -> step (st i) (st (S i)).
    Hypothesis Hrestart : s_delta (st 0%nat) && Rltb 0 (s_Gold (st 0%nat)) = false.

    Let g i := gp (st i).
    Let t i := tt (st i).
    Let tau i := h_tau (cg_half K c (st i)).
    (** Response of the gap on the contact area to the directions. *)
    Variable q : nat -> P -> R.
    Hypothesis seq_g : forall i, (i < m)%nat -> forall p, In p cl -> g (S i) p = g i p + tau i * q i p.
    Hypothesis seq_sym : forall i j, (i <= m)%nat -> (j <= m)%nat -> dot cl (q i) (t j) = dot cl (q j) (t i).
    Hypothesis seq_tau : forall i, (i <= m)%nat -> tau i * (- dot cl (q i) (t i)) = dot cl (g i) (t i).
    Hypothesis seq_q0 : forall i p, (i <= m)%nat -> (forall r, t i r = 0) -> q i p = 0.

    Lemma seq_t0 p : In p cl -> t 0%nat p = g 0%nat p.
    Proof.
      intros Hp. apply cl_in in Hp. destruct Hp as [_ Hp]. unfold t, g.
      rewrite tt_in by (auto; apply Hgood; lia). rewrite Hrestart. reflexivity.
    Qed.

    (** As long as the gap on the contact area is not zero, the directions are
        those of conjugate gradients. *)
    Lemma seq_t k : (k <= m)%nat -> (forall i, (i < k)%nat -> dot cl (g i) (g i) <> 0) ->
      forall i, (i < k)%nat -> forall p, In p cl ->
        t (S i) p = g (S i) p + dot cl (g (S i)) (g (S i)) / dot cl (g i) (g i) * t i p.
    Proof.
      induction k as [|k IH]; intros Hk Hne i Hi p Hp; [lia|].
      assert (IH' := IH ltac:(lia) ltac:(intros; apply Hne; lia)).
      destruct (Nat.eq_dec i k) as [->|Hik]; [|apply IH'; auto; lia].
      destruct (cg_all cl g t q tau k seq_t0 IH'
                 ltac:(intros j Hj r Hr; apply seq_g; [lia|exact Hr])
                 ltac:(intros j Hj; apply seq_tau; lia)
                 ltac:(intros; apply seq_sym; lia)
                 ltac:(intros j Hj; apply Hne; lia) k (le_n k)) as (_&_&Hgt&_).
      destruct (step_facts _ _ (Hgood k ltac:(lia)) (Hgood (S k) ltac:(lia)) (Hstep k ltac:(lia)))
        as (_&Hd&Ht&HG&_).
      assert (Hpos : 0 < cg_x c (st k)).
      { destruct (Rlt_dec 0 (cg_x c (st k))) as [|N]; auto. exfalso.
        apply (Hne k ltac:(lia)). rewrite <- Hgt. apply lsum_zero. intros r Hr.
        apply cl_in in Hr. destruct Hr as [Hr _].
        unfold t. rewrite (x_zero (st k) (Hgood k ltac:(lia)) N r Hr). ring. }
      assert (HGold : s_Gold (st (S k)) = dot cl (g k) (g k)).
      { rewrite HG, cg_half_G. cbv zeta. fold (gp (st k)). rewrite g2_eq by (apply Hgood; lia).
        fold (g k). apply Rltb_true in Hpos. rewrite Hpos.
        destruct (Nat.ltb _ _); reflexivity. }
      apply cl_in in Hp. destruct Hp as [_ Hp]. unfold t at 1.
      rewrite tt_in by (auto; apply Hgood; lia). rewrite Hd, HGold, Ht.
      assert (Hb : Rltb 0 (dot cl (g k) (g k)) = true).
      { apply Rltb_true. pose proof (dot_self_nonneg cl (g k)). pose proof (Hne k ltac:(lia)). lra. }
      rewrite Hb. reflexivity.
    Qed.

    Lemma seq_orthogonal k : (k <= m)%nat -> (forall i, (i < k)%nat -> dot cl (g i) (g i) <> 0) ->
      forall i j, (i <= k)%nat -> (j <= k)%nat -> i <> j -> dot cl (g i) (g j) = 0.
    Proof.
      intros Hk Hne. apply (cg_orthogonal cl g t q tau k); auto.
      - apply seq_t0.
      - apply seq_t; auto.
      - intros; apply seq_g; [lia|assumption].
      - intros; apply seq_tau; lia.
      - intros; apply seq_sym; lia.
    Qed.
    Lemma seq_short k : (k <= m)%nat -> (forall i, (i < k)%nat -> dot cl (g i) (g i) <> 0) ->
      (k <= length cl)%nat.
    Proof.
      intros Hk Hne. apply (cg_short cl g t q tau k); auto.
      - apply seq_t0.
      - apply seq_t; auto.
      - intros; apply seq_g; [lia|assumption].
      - intros; apply seq_tau; lia.
      - intros; apply seq_sym; lia.
    Qed.

    Hypothesis Cov : covers c.

    (** A zero gap stays zero, together with the forces. *)
    Lemma zero_gap i p : dot cl (g i) (g i) = 0 -> C p = true -> g i p = 0.
    Proof. intros Hz E. apply (dot_self_zero cl); auto. apply cl_in; auto. Qed.
    Lemma zero_t i p : (i <= m)%nat -> dot cl (g i) (g i) = 0 -> t i p = 0.
    Proof.
      intros Hi Hz. destruct (C p) eqn:E; [|apply tt_out; auto].
      unfold t. rewrite tt_in by auto. fold (g i). rewrite Hz, (zero_gap i p Hz E).
      match goal with |- context [if ?b then _ else _] => destruct b end; [unfold Rdiv; ring|reflexivity].
    Qed.
    Lemma seq_stay i : (i < m)%nat -> dot cl (g i) (g i) = 0 -> forall p, In p cl -> g (S i) p = g i p.
    Proof.
      intros Hi Hz p Hp. rewrite seq_g by auto. rewrite (seq_q0 i p); [ring|lia|].
      intros r. apply zero_t; auto; lia.
    Qed.
    Lemma seq_stays i j : (i <= j)%nat -> (j <= m)%nat -> dot cl (g i) (g i) = 0 -> dot cl (g j) (g j) = 0.
    Proof.
      intros Hij. induction Hij as [|j Hij IH]; auto. intros Hj Hz.
      specialize (IH ltac:(lia) Hz).
      rewrite <- IH. apply dot_ext; intros; apply seq_stay; auto; lia.
    Qed.

    Lemma first_zero k : (exists i, (i < k)%nat /\ dot cl (g i) (g i) = 0) \/
      (forall i, (i < k)%nat -> dot cl (g i) (g i) <> 0).
    Proof.
      induction k as [|k [(i&Hi&Hz)|IH]].
      - right. intros; lia.
      - left. exists i. split; [lia|auto].
      - destruct (Req_dec (dot cl (g k) (g k)) 0) as [Hz|Hz].
        + left. exists k. split; [lia|auto].
        + right. intros i Hi. destruct (Nat.eq_dec i k) as [->|]; auto. apply IH. lia.
    Qed.

    Lemma seq_gaps_orthogonal i j : (i < j)%nat -> (j <= m)%nat -> dot cl (g i) (g j) = 0.
    Proof.
      intros Hij Hj. destruct (first_zero j) as [(k&Hk&Hz)|Hn].
      - assert (Hzj : dot cl (g j) (g j) = 0) by (apply (seq_stays k); auto; lia).
        apply lsum_zero. intros p Hp. apply cl_in in Hp. destruct Hp as [_ Hp].
        rewrite (zero_gap j p Hzj Hp). ring.
      - apply (seq_orthogonal j); auto; lia.
    Qed.

    Lemma seq_reaches : (length cl <= m)%nat -> forall p, C p = true -> g (length cl) p = 0.
    Proof.
      intros Hm p Hp. apply zero_gap; auto.
      destruct (first_zero (S (length cl))) as [(i&Hi&Hz)|Hn].
      - apply (seq_stays i); auto; lia.
      - exfalso. assert (S (length cl) <= length cl)%nat; [|lia].
        apply (orthogonal_few cl g); auto.
        intros i j Hi Hj E. apply (seq_orthogonal (length cl)); auto; try lia; intros; apply Hn; lia.
    Qed.

    (** If the gaps have zero mean there is one dimension less. *)
    Lemma seq_reaches_sooner : (forall i, (i <= m)%nat -> lsum cl (g i) = 0) -> cl <> [] ->
      (pred (length cl) <= m)%nat -> forall p, C p = true -> g (pred (length cl)) p = 0.
    Proof.
      intros Hsum Hcl Hm p Hp. apply zero_gap; auto.
      assert (HN : (1 <= length cl)%nat) by (destruct cl; [congruence|cbn; lia]).
      destruct (first_zero (length cl)) as [(i&Hi&Hz)|Hn].
      - apply (seq_stays i); auto; lia.
      - exfalso. assert (S (length cl) <= length cl)%nat; [|lia].
        assert (H1 : forall phi, dot cl (fun _ => 1) phi = lsum cl phi).
        { intros phi. apply lsum_ext. intros; ring. }
        apply (orthogonal_few cl (fun i => match i with O => fun _ => 1 | S i => g i end)).
        + intros [|i] Hi; [|apply Hn; lia]. rewrite H1. intros Hz.
          destruct cl as [|r l] eqn:Ecl; [congruence|].
          assert (1 = 0); [|lra]. apply (lsum_nonneg_eq0 (r :: l) (fun _ => 1)) with (p := r); [intros; lra|exact Hz|left; auto].
        + intros [|i] [|j] Hi Hj E; try congruence.
          * rewrite H1. apply Hsum. lia.
          * rewrite dot_sym, H1. apply Hsum. lia.
          * apply (seq_orthogonal (pred (length cl))); auto; try lia. intros; apply Hn; lia.
    Qed.
  End Seq.

  (** A closed gap and no penetrating point: the exact solution. *)
  Lemma good_exact s off : good s -> any_nc K c (cg_half K c s) = false -> covers c ->
    h_off (cg_half K c s) = off -> (forall p, C p = true -> gp s p = 0) ->
    exact_solution c off (fun p => - s_f s p).
  Proof.
    intros G Hnc Cov Ho Hz.
    assert (Eu : (fun p => - - s_f s p) = s_f s) by (apply functional_extensionality; intros; ring).
    unfold exact_solution. rewrite Eu. split.
    - intros p _ Hp. apply comp_false in Hp. destruct (g_pad _ G p Hp) as [-> _]. ring.
    - intros p Hp Hon. apply comp_spec in Hon. rewrite <- Ho, <- (gp_half _ p G).
      pose proof (g_np _ G p). split; [lra|].
      destruct (C p) eqn:E.
      + rewrite (Hz p E). split; [lra|ring].
      + split; [|rewrite (good_out _ p G E); ring].
        apply (elastic_nc c El s p); auto. rewrite (good_cg _ G). auto.
  Qed.
  Lemma good_total s : good s -> covers c -> (exists p, C p = true) -> tot_force c (s_f s) <> 0.
  Proof.
    intros G Cov [p Hp] Hz. unfold tot_force in Hz.
    assert (Hs : lsum (grid c) (fun p => - bmul K (comp c p) (s_f s p)) = 0)
      by (rewrite lsum_opp; auto).
    assert (Hp0 : - bmul K (comp c p) (s_f s p) = 0).
    { apply (lsum_nonneg_eq0 (grid c) (fun p => - bmul K (comp c p) (s_f s p))); auto.
      intros r _. cbv beta. pose proof (g_np _ G r). unfold bmul. destruct (comp c r); cbn; lra. }
    rewrite (good_comp _ p G Hp) in Hp0. unfold bmul in Hp0. apply (g_in _ G) in Hp. lra.
  Qed.

  (** ** Fixed offset *)
  Section Offset.
    Hypothesis He : offset_control c.
    Lemma gp_eq s p : good s -> s_off s = c_offset c -> gp s p = c_disp c (s_f s) p - c_h c p - c_offset c.
    Proof.
      intros G Ho. rewrite (gp_half s p G), cg_half_off. unfold offset_control in He. rewrite He, Ho. reflexivity.
    Qed.
    Lemma step_force s s' : good s -> good s' -> step s s' ->
      forall p, s_f s' p = s_f s p + h_tau (cg_half K c s) * tt s p.
    Proof.
      intros G G' St p. destruct (step_facts _ _ G G' St) as (Hf&_).
      rewrite adjust_force_unfold in Hf. unfold offset_control in He. rewrite He in Hf.
      rewrite Hf. apply no_clip; auto. rewrite <- Hf. destruct (C p) eqn:E; auto. left. now apply G'.
    Qed.

    Variable st : nat -> @state R P.
    Variable m : nat.
    Hypothesis Hgood : forall i, (i <= m)%nat -> good (st i).
    Hypothesis Hstep : forall i, (i < m)%nat -> step (st i) (st (S i)).
    Hypothesis Hrestart : s_delta (st 0%nat) = false.
    Hypothesis Hoff : forall i, (i <= m)%nat -> s_off (st i) = c_offset c.
    Hypothesis Cov : covers c.
    Let q i := c_disp c (tt (st i)).

    Lemma off_g i : (i < m)%nat -> forall p, In p cl ->
      gp (st (S i)) p = gp (st i) p + h_tau (cg_half K c (st i)) * q i p.
    Proof.
      intros Hi p _. unfold q.
      pose proof (step_force _ _ (Hgood i ltac:(lia)) (Hgood (S i) ltac:(lia)) (Hstep i Hi)) as Hf.
      rewrite !gp_eq by (try apply Hgood; try apply Hoff; lia).
      replace (s_f (st (S i))) with (fun p => s_f (st i) p + (fun p => h_tau (cg_half K c (st i)) * tt (st i) p) p)
        by (apply functional_extensionality; intros; rewrite Hf; reflexivity).
      destruct Li as [La Ls]. rewrite La, Ls. ring.
    Qed.
    Lemma off_sym i j : (i <= m)%nat -> (j <= m)%nat -> dot cl (q i) (tt (st j)) = dot cl (q j) (tt (st i)).
    Proof. intros Hi Hj. apply tt_sym; auto. Qed.
    Lemma off_tau i : (i <= m)%nat -> h_tau (cg_half K c (st i)) * (- dot cl (q i) (tt (st i))) = dot cl (gp (st i)) (tt (st i)).
    Proof. intros Hi. apply tau_eq; auto. Qed.
    Lemma off_q0 i p : (i <= m)%nat -> (forall r, tt (st i) r = 0) -> q i p = 0.
    Proof. intros _ H. apply disp_tt0; auto. Qed.

    Lemma off_restart : s_delta (st 0%nat) && Rltb 0 (s_Gold (st 0%nat)) = false.
    Proof. rewrite Hrestart. reflexivity. Qed.

    Lemma off_gaps_orthogonal i j : (i < j)%nat -> (j <= m)%nat -> dot cl (gp (st i)) (gp (st j)) = 0.
    Proof. exact (seq_gaps_orthogonal st m Hgood Hstep off_restart q off_g off_sym off_tau off_q0 Cov i j). Qed.
    Lemma off_reaches : (length cl <= m)%nat -> forall p, C p = true -> gp (st (length cl)) p = 0.
    Proof. exact (seq_reaches st m Hgood Hstep off_restart q off_g off_sym off_tau off_q0 Cov). Qed.
    Lemma off_half i : (i <= m)%nat -> h_off (cg_half K c (st i)) = c_offset c.
    Proof. intros Hi. rewrite cg_half_off. unfold offset_control in He. rewrite He. auto. Qed.
    Lemma off_exact : (length cl < m)%nat ->
      exact_solution c (c_offset c) (fun p => - s_f (st (length cl)) p).
    Proof.
      intros Hm. pose proof (Hgood (length cl) ltac:(lia)) as G.
      destruct (step_facts _ _ G (Hgood (S (length cl)) ltac:(lia)) (Hstep _ Hm)) as (_&_&_&_&Hnc).
      apply good_exact; auto; [apply off_half; lia|]. apply off_reaches. lia.
    Qed.

    Hypothesis Tol : tolerances_positive c.
    Hypothesis Hne : exists p, C p = true.
    Lemma off_conv : (length cl < m)%nat ->
      s_lasttf (st (length cl)) = Some (tot_force c (s_f (st (length cl)))) ->
      exists fu, iter K c (st (length cl)) = Ok fu /\ fu_conv fu = true.
    Proof.
      intros Hm Hl. pose proof (Hgood (length cl) ltac:(lia)) as G.
      assert (Eu : (fun p => - - s_f (st (length cl)) p) = s_f (st (length cl))).
      { apply functional_extensionality. intros; ring. }
      destruct (ex_iter c (fun p => - s_f (st (length cl)) p) (c_offset c) Cov El Tol (off_exact Hm)
                  (st (length cl))) as (fu&H1&H2&_).
      - symmetry; exact Eu.
      - rewrite Eu. apply (g_u _ G).
      - intros p Hp. apply (g_pad _ G p Hp).
      - apply off_half. lia.
      - intros Fx E. unfold offset_control in He. congruence.
      - right. rewrite Eu. split; auto. apply good_total; auto.
      - right; left. exact He.
      - eauto.
    Qed.
  End Offset.
End Finite.
