(** * Prescribed load: iterations during which the contact area does not change
    With a prescribed load lines 264-276 of Optimization.py take the mean gap on
    the contact area as rigid-body offset, and lines 366-377 rescale the forces to
    the load.  As long as the contact area does not change and the forces carry the
    load, the rescaling does nothing and the iterations are conjugate gradient
    steps among the forces of that total. *)
From Coq Require Import Reals Lra List Bool Arith Lia FunctionalExtensionality.
From Verif Require Import CCG_Model CCG_Real CCG_Spec CCG_Proofs CCG_Conv CCG_Results CCG_Results2 CCG_Returns CCG_Load CG_Base CCG_Finite CCG_FiniteRun.
Import ListNotations.
Local Open Scope R_scope.

(** Specification: the force that the surface carries. *)
Definition carried {P} (c : @cfg R P) (s : @state R P) : R :=
  lsum (filter (fun p => c_slice c p && negb (c_masked c p)) (grid c)) (fun p => - s_f s p).
(** A fresh start at iterate [k] at the load [Fx].  The iterate
    carries the load without tension, and the next direction starts afresh: its
    status is not "cg", or it is the first one after a guess that pressed nowhere. *)
Definition fresh {P} (c : @cfg R P) (k : nat) (Fx : R) : Prop :=
  exists s, after c k = Ok s /\ (forall p, s_f s p <= 0) /\ s_u s = c_disp c (s_f s) /\
    carried c s = Fx /\
    (s_str s <> Cg \/ k = 1%nat /\ forall s0, after c 0 = Ok s0 -> forall p, 0 <= s_f s0 p).
(** Mean gap over the contact area, and the gap above it. *)
Definition mean_gap {P} (c : @cfg R P) (C : P -> bool) (s : @state R P) : R :=
  lsum (filter C (grid c)) (fun p => s_u s p - c_h c p) / INR (length (filter C (grid c))).
Definition level_gap {P} (c : @cfg R P) (C : P -> bool) (s : @state R P) (p : P) : R :=
  s_u s p - c_h c p - mean_gap c C s.

Lemma carried_tot {P} (c : @cfg R P) s : carried c s = tot_force c (s_f s).
Proof.
  unfold carried, tot_force. rewrite lsum_filter, <- lsum_opp. apply lsum_ext. intros p _.
  unfold comp, bmul. destruct (c_slice c p), (c_masked c p); cbn; ring.
Qed.

Section Force.
  Context {P : Type}.
  Local Notation K := (ROps P).
  Variable c : @cfg R P.
  Hypothesis El : elastic c.
  Hypothesis Li : linear (c_disp c).
  Hypothesis Sa : self_adjoint (grid c) (c_disp c).
  Hypothesis Co : compliant (grid c) (c_disp c).
  Hypothesis Cov : covers c.
  Variable Fx : R.
  Hypothesis Ext : c_ext c = Some Fx.
  Hypothesis Pos : 0 < Fx.
  Variable C : P -> bool.
  Hypothesis Hne : exists p, C p = true.
  Local Notation cl := (cl c C).
  Local Notation gp := (gp c).
  Local Notation tt := (tt c).
  Local Notation good := (good c C).
  Definition mean (phi : P -> R) : R := lsum cl phi / INR (length cl).

  Lemma cl_pos : 0 < INR (length cl).
  Proof.
    apply lt_0_INR. destruct Hne as [p Hp].
    assert (Hin : In p cl) by (apply cl_in; auto). destruct cl; [destruct Hin|cbn; lia].
  Qed.
  Lemma mean_lin phi psi k : mean (fun p => phi p + k * psi p) = mean phi + k * mean psi.
  Proof.
    unfold mean. rewrite (lsum_plus cl phi (fun p => k * psi p)), lsum_scal.
    pose proof cl_pos. field. lra.
  Qed.
  Lemma lsum_level phi : lsum cl (fun p => phi p - mean phi) = 0.
  Proof.
    rewrite (lsum_ext cl _ (fun p => phi p + (- mean phi))) by (intros; ring).
    rewrite (lsum_plus cl phi (fun _ => - mean phi)). unfold CCG_Finite.cl at 2. rewrite lsum_filter_const.
    fold cl. unfold mean. pose proof cl_pos. field. lra.
  Qed.

  Lemma half_off s : good s -> h_off (cg_half K c s) = mean (fun p => c_disp c (s_f s) p - c_h c p).
  Proof.
    intros G. rewrite cg_half_off, Ext, (good_cg c El C s G).
    assert (Hc : Nat.ltb O (rcount (c_ranks c) C) = true).
    { apply rcount_pos. destruct Hne as [p Hp]. exists p. split; [apply Cov|auto]. }
    rewrite Hc, rsum_lsum, rcount_length. fold (grid c). unfold mean, CCG_Finite.cl. f_equal.
    rewrite lsum_filter. apply lsum_ext. intros p _. unfold bmul. rewrite (g_u c C s G).
    destruct (C p) eqn:E; [rewrite (good_comp c C s p G E)|rewrite andb_false_r]; reflexivity.
  Qed.
  Lemma gp_level s p : good s -> gp s p = level_gap c C s p.
  Proof.
    intros G. rewrite (gp_half c C s p G), (half_off s G). unfold level_gap, mean_gap. rewrite (g_u c C s G). reflexivity.
  Qed.
  Lemma gp_sum s : good s -> lsum cl (gp s) = 0.
  Proof.
    intros G. rewrite <- (lsum_level (fun p => c_disp c (s_f s) p - c_h c p)).
    apply lsum_ext. intros p _. rewrite (gp_half c C s p G), (half_off s G). reflexivity.
  Qed.
  Lemma tot_cl phi : (forall p, C p = false -> phi p = 0) -> (forall p, C p = true -> comp c p = true) ->
    tot_force c phi = - lsum cl phi.
  Proof.
    intros H0 H1. unfold tot_force. f_equal. rewrite (lsum_cl c C).
    - apply lsum_ext. intros p Hp. apply cl_in in Hp. destruct Hp as [_ Hp]. unfold bmul. rewrite (H1 p Hp). reflexivity.
    - intros p E. rewrite (H0 p E). unfold bmul. destruct (comp c p); reflexivity.
  Qed.

  (** One iteration. *)
  Lemma step_load s s' : good s -> good s' -> step c s s' ->
    lsum cl (s_f s) = - Fx -> lsum cl (tt s) = 0 ->
    forall p, s_f s' p = s_f s p + h_tau (cg_half K c s) * tt s p.
  Proof.
    intros G G' St Hf Ht. destruct (step_facts c El C _ _ G G' St) as (Hn&_).
    rewrite adjust_force_unfold, Ext in Hn.
    set (f := clip_tensile K (cg_half K c s)) in *.
    assert (Hsum : lsum cl (fun p => s_f s p + h_tau (cg_half K c s) * tt s p) = - Fx).
    { rewrite (lsum_plus cl (s_f s) (fun p => h_tau (cg_half K c s) * tt s p)), lsum_scal, Hf, Ht. ring. }
    assert (Hneg : forall p, f p <= 0) by apply clip_tensile_nonpos.
    assert (Hout : forall p, C p = false -> f p = 0).
    { intros p E. unfold f. rewrite (no_clip c El C s p G) by auto.
      rewrite (tt_out c El C s p G E), (good_out c C s p G E). ring. }
    assert (Htot : tot_force c f = - lsum cl f) by (apply tot_cl; auto; intros p E; apply (good_comp c C s p G E)).
    assert (Hcl : forall p, C p = true -> f p < 0).
    { destruct (Reqb (tot_force c f) 0) eqn:E.
      - exfalso. apply Reqb_true in E.
        assert (Hz : forall p, In p cl -> - f p = 0).
        { intros p Hp. apply (lsum_nonneg_eq0 cl (fun p => - f p)); auto.
          - intros r _. pose proof (Hneg r). lra.
          - rewrite lsum_opp. lra. }
        assert (0 <= lsum cl (fun p => s_f s p + h_tau (cg_half K c s) * tt s p)); [|lra].
        apply lsum_nonneg. intros p Hp. pose proof (Hz p Hp) as Hz'. apply cl_in in Hp. destruct Hp as [_ Hp].
        assert (Hh : h_f (cg_half K c s) p = s_f s p + h_tau (cg_half K c s) * tt s p)
          by (rewrite cg_half_f, (good_cg c El C s G), Hp; reflexivity).
        rewrite <- Hh. unfold f in Hz'.
        destruct (clip_tensile_cases (cg_half K c s) p) as [[H1 H2]|[H1 H2]]; rewrite H2 in Hz'; lra.
      - apply Reqb_false in E. intros p Hp. apply (g_in c C s' G') in Hp. rewrite Hn in Hp. cbv beta in Hp.
        assert (Hpos : 0 < Fx / tot_force c f).
        { apply Rdiv_lt_0_compat; auto. assert (0 <= tot_force c f); [|lra].
          rewrite Htot, <- lsum_opp. apply lsum_nonneg. intros r _. pose proof (Hneg r). lra. }
        pose proof (Hneg p). destruct (Req_dec (f p) 0) as [Z|Z]; [rewrite Z in Hp; lra|lra]. }
    assert (Hall : forall p, f p = s_f s p + h_tau (cg_half K c s) * tt s p).
    { intros p. apply (no_clip c El C s p G). destruct (C p) eqn:E; auto. }
    assert (HF : tot_force c f = Fx).
    { rewrite Htot, (lsum_ext cl _ _ (fun p _ => Hall p)), Hsum. ring. }
    intros p. rewrite Hn, HF. destruct (Reqb Fx 0) eqn:E; [apply Reqb_true in E; lra|].
    rewrite <- Hall. field. lra.
  Qed.

  Section Seq.
    Variable st : nat -> @state R P.
    Variable m : nat.
    Hypothesis Hgood : forall i, (i <= m)%nat -> good (st i).
    Hypothesis Hstep : forall i, (i < m)%nat -> step c (st i) (st (S i)).
    Hypothesis Hrestart : s_delta (st 0%nat) && Rltb 0 (s_Gold (st 0%nat)) = false.
    Hypothesis Hload : tot_force c (s_f (st 0%nat)) = Fx.
    Let tau i := h_tau (cg_half K c (st i)).
    Let q i p := c_disp c (tt (st i)) p - mean (c_disp c (tt (st i))).

    Lemma ld_comp p : C p = true -> comp c p = true.
    Proof. apply (good_comp c C (st 0%nat)). apply Hgood. lia. Qed.
    Lemma ld_sums i : (i <= m)%nat -> lsum cl (s_f (st i)) = - Fx /\ lsum cl (tt (st i)) = 0.
    Proof.
      induction i as [|i IH]; intros Hi.
      - split.
        + rewrite <- Hload, tot_cl; [ring| |apply ld_comp]. intros p. apply (good_out c C). apply Hgood. lia.
        + rewrite <- (gp_sum (st 0%nat)) by (apply Hgood; lia). apply lsum_ext. intros p Hp.
          apply cl_in in Hp. destruct Hp as [_ Hp].
          rewrite (tt_in c El C) by (auto; apply Hgood; lia). rewrite Hrestart. reflexivity.
      - destruct (IH ltac:(lia)) as [I1 I2].
        pose proof (Hgood i ltac:(lia)) as G. pose proof (Hgood (S i) Hi) as G'. pose proof (Hstep i Hi) as St.
        split.
        + rewrite (lsum_ext cl _ _ (fun p _ => step_load _ _ G G' St I1 I2 p)).
          rewrite (lsum_plus cl (s_f (st i)) (fun p => h_tau (cg_half K c (st i)) * tt (st i) p)), lsum_scal, I1, I2. ring.
        + destruct (step_facts c El C _ _ G G' St) as (_&_&Ht&_).
          set (b := if s_delta (st (S i)) && Rltb 0 (s_Gold (st (S i)))
                    then dot cl (gp (st (S i))) (gp (st (S i))) / s_Gold (st (S i)) else 0).
          rewrite (lsum_ext cl _ (fun p => gp (st (S i)) p + b * tt (st i) p)).
          * rewrite (lsum_plus cl (gp (st (S i))) (fun p => b * tt (st i) p)), lsum_scal, I2, gp_sum by auto. ring.
          * intros p Hp. apply cl_in in Hp. destruct Hp as [_ Hp].
            rewrite (tt_in c El C) by auto. rewrite Ht. unfold b. match goal with |- context [if ?x then _ else _] => destruct x end; ring.
    Qed.
    Lemma ld_force i : (i < m)%nat -> forall p, s_f (st (S i)) p = s_f (st i) p + tau i * tt (st i) p.
    Proof.
      intros Hi. destruct (ld_sums i ltac:(lia)) as [I1 I2].
      apply step_load; auto; apply Hgood; lia.
    Qed.
    Lemma ld_total i : (i <= m)%nat -> tot_force c (s_f (st i)) = Fx.
    Proof.
      intros Hi. rewrite tot_cl; [|intros p; apply (good_out c C); auto|apply ld_comp].
      destruct (ld_sums i Hi) as [-> _]. ring.
    Qed.
    Lemma ld_g i : (i < m)%nat -> forall p, In p cl -> gp (st (S i)) p = gp (st i) p + tau i * q i p.
    Proof.
      intros Hi p _. pose proof (ld_force i Hi) as Hf.
      assert (D : c_disp c (s_f (st (S i))) = fun p => c_disp c (s_f (st i)) p + tau i * c_disp c (tt (st i)) p).
      { apply functional_extensionality. intros r.
        replace (s_f (st (S i))) with (fun p => s_f (st i) p + (fun p => tau i * tt (st i) p) p)
          by (apply functional_extensionality; intros; rewrite Hf; reflexivity).
        destruct Li as [La Ls]. rewrite La, Ls. ring. }
      rewrite !(gp_half c C), !half_off by (apply Hgood; lia). rewrite D. unfold q.
      replace (mean (fun p0 => c_disp c (s_f (st i)) p0 + tau i * c_disp c (tt (st i)) p0 - c_h c p0))
        with (mean (fun p0 => (c_disp c (s_f (st i)) p0 - c_h c p0) + tau i * c_disp c (tt (st i)) p0))
        by (f_equal; apply functional_extensionality; intros; ring).
      rewrite mean_lin. ring.
    Qed.
    Lemma ld_dot i j : (j <= m)%nat -> dot cl (q i) (tt (st j)) = dot cl (c_disp c (tt (st i))) (tt (st j)).
    Proof.
      intros Hj. destruct (ld_sums j Hj) as [_ I2]. unfold dot, q.
      rewrite (lsum_ext cl _ (fun p => c_disp c (tt (st i)) p * tt (st j) p + (- mean (c_disp c (tt (st i)))) * tt (st j) p))
        by (intros; ring).
      rewrite (lsum_plus cl (fun p => c_disp c (tt (st i)) p * tt (st j) p) (fun p => (- mean (c_disp c (tt (st i)))) * tt (st j) p)).
      rewrite (lsum_scal cl _ (tt (st j))), I2. ring.
    Qed.
    Lemma ld_sym i j : (i <= m)%nat -> (j <= m)%nat -> dot cl (q i) (tt (st j)) = dot cl (q j) (tt (st i)).
    Proof. intros Hi Hj. rewrite !ld_dot by auto. apply (tt_sym c El Sa C); auto. Qed.
    Lemma ld_tau i : (i <= m)%nat -> tau i * (- dot cl (q i) (tt (st i))) = dot cl (gp (st i)) (tt (st i)).
    Proof. intros Hi. rewrite ld_dot by auto. apply tau_eq; auto. Qed.
    Lemma ld_q0 i p : (i <= m)%nat -> (forall r, tt (st i) r = 0) -> q i p = 0.
    Proof.
      intros _ H. unfold q. rewrite (disp_tt0 c Li (st i) p H).
      replace (c_disp c (tt (st i))) with (fun _ : P => 0)
        by (apply functional_extensionality; intros r; rewrite (disp_tt0 c Li (st i) r H); reflexivity).
      unfold mean. rewrite lsum_zero by auto. unfold Rdiv. ring.
    Qed.

    Lemma ld_orthogonal i j : (i < j)%nat -> (j <= m)%nat -> dot cl (gp (st i)) (gp (st j)) = 0.
    Proof. exact (seq_gaps_orthogonal c El Co C st m Hgood Hstep Hrestart q ld_g ld_sym ld_tau ld_q0 Cov i j). Qed.
    Lemma ld_reaches : (pred (length cl) <= m)%nat -> forall p, C p = true -> gp (st (pred (length cl))) p = 0.
    Proof.
      apply (seq_reaches_sooner c El Co C st m Hgood Hstep Hrestart q ld_g ld_sym ld_tau ld_q0 Cov).
      - intros i Hi. apply gp_sum; auto.
      - pose proof cl_pos as H. intros E. rewrite E in H. cbn in H. lra.
    Qed.

    (** The next iterate has the same forces, and its offset belongs to them. *)
    Lemma ld_same : (length cl <= m)%nat ->
      s_f (st (length cl)) = s_f (st (pred (length cl))) /\
      s_off (st (length cl)) = h_off (cg_half K c (st (pred (length cl)))) /\
      (forall p, C p = true -> gp (st (length cl)) p = 0) /\
      h_off (cg_half K c (st (length cl))) = s_off (st (length cl)) /\
      s_lastmh (st (length cl)) = Some (match rmax K (c_ranks c) (comp c) (c_h c) with
        | Some v => Some (v + s_off (st (length cl))) | None => None end) /\
      s_lasttf (st (length cl)) = Some (tot_force c (s_f (st (length cl)))) /\
      any_nc K c (cg_half K c (st (pred (length cl)))) = false.
    Proof.
      intros Hm. assert (HN : (1 <= length cl)%nat) by (apply INR_le; change (INR 1) with 1; pose proof cl_pos as H;
        destruct (length cl); [cbn in H; lra|]; rewrite S_INR; pose proof (pos_INR n); lra).
      remember (pred (length cl)) as n eqn:En. assert (Em : length cl = S n) by lia. rewrite Em in *.
      pose proof (Hgood n ltac:(lia)) as G. pose proof (Hgood (S n) Hm) as G'. pose proof (Hstep n Hm) as St.
      assert (Hz : forall p, C p = true -> gp (st n) p = 0) by (pose proof ld_reaches as X; rewrite Em in X; cbn [pred] in X; apply X; lia).
      assert (Ht : forall p, tt (st n) p = 0).
      { intros r. apply (CCG_Finite.zero_t c El C st m Hgood Cov); [lia|]. apply lsum_zero. intros p Hp. apply cl_in in Hp. destruct Hp as [_ Hp].
        rewrite (Hz p Hp). ring. }
      assert (Hf : s_f (st (S n)) = s_f (st n)).
      { apply functional_extensionality. intros p. rewrite ld_force by lia. rewrite Ht. ring. }
      assert (Ho : h_off (cg_half K c (st (S n))) = h_off (cg_half K c (st n))).
      { rewrite !half_off by auto. rewrite Hf. reflexivity. }
      destruct (step_facts c El C _ _ G G' St) as (_&_&_&_&Hnc).
      assert (Hs : s_off (st (S n)) = h_off (cg_half K c (st n)) /\
        s_lastmh (st (S n)) = Some (match rmax K (c_ranks c) (comp c) (c_h c) with
          | Some v => Some (v + h_off (cg_half K c (st n))) | None => None end) /\
        s_lasttf (st (S n)) = Some (tot_force c (s_f (st (S n))))).
      { destruct St as [[fu [Hi <-]] _]. unfold iter, first_half in Hi. pose proof El as El'. unfold elastic in El'. rewrite El' in Hi.
        unfold second_half in Hi. destruct (max_pres K c (cg_half K c (st n))) as [mp|]; [|discriminate].
        assert (X : forall a b : @full R P, Ok a = Ok b -> b = a) by (intros a b E; congruence). apply X in Hi. subst fu.
        split; [reflexivity|]. split; [reflexivity|]. cbn [fu_state s_lasttf s_f].
        unfold tot_force, grid. rewrite rsum_lsum. reflexivity. }
      destruct Hs as (Hs1&Hs2&Hs3).
      split; [exact Hf|]. split; [exact Hs1|]. split.
      - intros p Hp. rewrite (gp_half c C _ p G'), Ho, Hf, <- (gp_half c C _ p G). auto.
      - split; [rewrite Ho, Hs1; reflexivity|]. split; [rewrite Hs2, Hs1; reflexivity|]. auto.
    Qed.
    Lemma ld_exact : (length cl <= m)%nat ->
      exact_solution c (s_off (st (length cl))) (fun p => - s_f (st (length cl)) p).
    Proof.
      intros Hm. destruct (ld_same Hm) as (Hf&Ho&_&_&_&_&Hnc). rewrite Hf.
      apply (good_exact c El C); auto.
      - apply Hgood. lia.
      - apply ld_reaches. lia.
    Qed.

    (** Somewhere in contact the surface is pushed up. *)
    Lemma ld_height v : (length cl <= m)%nat -> rmax K (c_ranks c) (comp c) (c_h c) = Some v ->
      0 < v + s_off (st (length cl)).
    Proof.
      intros Hm Hv. pose proof (Hgood _ Hm) as G. destruct (ld_same Hm) as (_&_&Hz&Ho&_).
      set (s := st (length cl)) in *.
      destruct (Rlt_dec 0 (v + s_off s)) as [|N]; auto. exfalso.
      assert (Hu : forall p, C p = true -> c_disp c (s_f s) p <= 0).
      { intros p Hp. pose proof (Hz p Hp) as Z. rewrite (gp_half c C s p G), Ho in Z.
        destruct (rmax_ge (c_ranks c) (comp c) (c_h c) p (Cov p) (ld_comp p Hp)) as (v'&E&L).
        rewrite Hv in E. injection E as <-. lra. }
      assert (Hpos : 0 < - lsum (grid c) (fun p => s_f s p * c_disp c (s_f s) p)).
      { apply Co. destruct Hne as [p Hp]. exists p. split; [apply Cov|]. apply (g_in c C s G) in Hp. lra. }
      assert (0 <= lsum (grid c) (fun p => s_f s p * c_disp c (s_f s) p)); [|lra].
      apply lsum_nonneg. intros p _. destruct (C p) eqn:E.
      - pose proof (Hu p E). pose proof (g_np c C s G p). nra.
      - rewrite (good_out c C s p G E). lra.
    Qed.

    Hypothesis Tol : tolerances_positive c.
    Lemma ld_conv : (length cl <= m)%nat ->
      exists fu, iter K c (st (length cl)) = Ok fu /\ fu_conv fu = true.
    Proof.
      intros Hm. pose proof (Hgood _ Hm) as G. destruct (ld_same Hm) as (_&_&_&Ho&Hl&Hlt&_).
      assert (Eu : (fun p => - - s_f (st (length cl)) p) = s_f (st (length cl))).
      { apply functional_extensionality. intros; ring. }
      destruct (ex_iter c (fun p => - s_f (st (length cl)) p) (s_off (st (length cl))) Cov El Tol (ld_exact Hm)
                  (st (length cl))) as (fu&H1&H2&_).
      - symmetry; exact Eu.
      - rewrite Eu. apply (g_u c C _ G).
      - intros p Hp. apply (g_pad c C _ G p Hp).
      - exact Ho.
      - intros F' E. rewrite Ext in E. injection E as <-. rewrite Eu, ld_total by auto. split; auto. lra.
      - right. rewrite Eu. split; [exact Hlt|]. rewrite ld_total by auto. lra.
      - right; right. destruct Hne as [p Hp].
        destruct (rmax_ge (c_ranks c) (comp c) (c_h c) p (Cov p) (ld_comp p Hp)) as (v&E&_).
        exists v. split; [exact E|]. rewrite E in Hl. split; [exact Hl|]. pose proof (ld_height v Hm E). lra.
      - eauto.
    Qed.
  End Seq.
End Force.

(** ** Runs *)
Section Run.
  Context {P : Type}.
  Local Notation K := (ROps P).
  Variable c : @cfg R P.
  Hypothesis El : elastic c.
  Variable Fx : R.
  Hypothesis Ext : c_ext c = Some Fx.
  Hypothesis Pos : 0 < Fx.

  Lemma after_next k s : after c (S k) = Ok s -> exists s0, after c k = Ok s0 /\
    s_f s = new_force K c (cg_half K c s0) /\ s_str s = new_str K c (cg_half K c s0) /\
    s_delta s = new_delta K c (cg_half K c s0) /\ s_Gold s = h_G (cg_half K c s0).
  Proof.
    intros H. cbn [after] in H. destruct (after c k) as [s0|] eqn:E; [|discriminate].
    destruct (iter K c s0) as [fu|] eqn:Ei; [|discriminate].
    assert (Hs : fu_state fu = s) by congruence. subst s. exists s0. split; auto.
    unfold iter, first_half in Ei. pose proof El as El'. unfold elastic in El'. rewrite El' in Ei.
    unfold second_half in Ei. destruct (max_pres K c (cg_half K c s0)) as [mp|]; [|discriminate].
    assert (X : forall a b : @full R P, Ok a = Ok b -> b = a) by (intros a b E'; congruence). apply X in Ei. subst fu.
    split; [reflexivity|]. split; [reflexivity|]. split; [reflexivity|].
    cbn [fu_state s_Gold]. unfold new_G. rewrite cg_half_str. reflexivity.
  Qed.
  Lemma adjust_nonpos h p : adjust_force K c (clip_tensile K h) p <= 0.
  Proof.
    rewrite adjust_force_unfold, Ext.
    pose proof (tot_nonneg c (clip_tensile K h) (clip_tensile_nonpos h)) as T.
    destruct (Reqb _ 0) eqn:E.
    - unfold pad. destruct (comp c p); cbn [negb]; [|lra].
      assert (0 <= Fx / INR (c_nsurf c)).
      { destruct (c_nsurf c); [cbn; unfold Rdiv; rewrite Rinv_0; lra|].
        apply Rlt_le, Rdiv_lt_0_compat; auto. apply lt_0_INR. lia. }
      unfold Rdiv in *. lra.
    - apply Reqb_false in E. pose proof (clip_tensile_nonpos h p).
      assert (0 < Fx / tot_force c (clip_tensile K h)) by (apply Rdiv_lt_0_compat; lra). nra.
  Qed.
  Lemma cg_nonpos k s : after c (S k) = Ok s -> s_str s = Cg -> forall p, s_f s p <= 0.
  Proof.
    intros H Hs p. destruct (after_next k s H) as (s0&_&Hf&Hst&_). rewrite Hst in Hs. rewrite Hf.
    unfold new_str in Hs. rewrite cg_half_str in Hs. destruct (any_nc K c (cg_half K c s0)) eqn:En; [discriminate|].
    rewrite elastic_new_force by (auto using cg_half_str). apply adjust_nonpos.
  Qed.
  Lemma other_delta k s : after c k = Ok s -> s_str s <> Cg -> s_delta s = false.
  Proof.
    intros H Hs. destruct k as [|k]; [injection H as <-; reflexivity|].
    destruct (after_next k s H) as (s0&_&_&Hst&Hd&_). rewrite Hst in Hs. rewrite Hd.
    unfold new_str in Hs. unfold new_delta. rewrite cg_half_str in *. destruct (any_nc K c (cg_half K c s0)); [reflexivity|now elim Hs].
  Qed.

  (** A guess that presses nowhere. *)
  Section Nowhere.
    Hypothesis Guess : forall p, 0 <= s_f (init_state K c) p.
    Lemma now_set p : cg_set K c (init_state K c) p = false.
    Proof. rewrite elastic_cg_set by exact El. apply Rltb_false. apply Guess. Qed.
    Lemma now_gold s : after c 1 = Ok s -> s_Gold s = 0.
    Proof.
      intros H. destruct (after_next 0 s H) as (s0&H0&_&_&_&HG). injection H0 as <-. rewrite HG, cg_half_G. cbv zeta.
      rewrite rsum_lsum, lsum_zero.
      - destruct (Nat.ltb _ _); auto. destruct (Rltb _ _); auto.
      - intros p _. rewrite now_set. unfold bmul. destruct (comp c p); reflexivity.
    Qed.
    Lemma now_first : exists s, after c 1 = Ok s /\ s_f s = spread c Fx.
    Proof.
      assert (Ha : exists s, after c 1 = Ok s).
      { cbn [after]. unfold iter, first_half. pose proof El as El'. unfold elastic in El'. rewrite El'.
        unfold second_half, max_pres. rewrite El'. eauto. }
      destruct Ha as [s Ha]. exists s. split; auto.
      destruct (after_next 0 s Ha) as (s0&H0&Hf&_). injection H0 as <-.
      pose proof now_set as Hset. set (s0 := init_state K c) in *.
      assert (Hc : clip_tensile K (cg_half K c s0) = fun _ => 0).
      { apply functional_extensionality. intros p.
        assert (E : h_f (cg_half K c s0) p = s_f s0 p) by (rewrite cg_half_f, (Hset p); unfold bmul; cbn; ring).
        destruct (clip_tensile_cases (cg_half K c s0) p) as [[H1 H2]|[H1 H2]]; auto.
        rewrite E in H1. pose proof (Guess p) as Gp. fold s0 in Gp. lra. }
      assert (Hz : tot_force c (fun _ => 0) = 0).
      { unfold tot_force. rewrite lsum_zero; [lra|]. intros p _. unfold bmul. destruct (comp c p); reflexivity. }
      assert (Hadj : adjust_force K c (clip_tensile K (cg_half K c s0)) = spread c Fx).
      { rewrite Hc, adjust_force_unfold, Ext, Hz. destruct (Reqb 0 0) eqn:E; [|apply Reqb_false in E; congruence].
        apply functional_extensionality. intros p. unfold spread, pad. destruct (comp c p); reflexivity. }
      assert (Ht : h_tau (cg_half K c s0) = 0).
      { rewrite cg_half_tau. assert (N : Nat.ltb O (rcount (c_ranks c) (cg_set K c s0)) = false)
          by (apply rcount_zero; intros p _; apply Hset). rewrite N. reflexivity. }
      rewrite Hf. destruct (any_nc K c (cg_half K c s0)) eqn:En.
      - unfold new_force. rewrite cg_half_str, En. unfold clip_flow. pose proof El as El'. unfold elastic in El'. rewrite El'. cbn [is_mix].
        rewrite Hadj, Ht. apply functional_extensionality. intros p. cbn [ROps mat oadd omul].
        destruct (comp c p); [|reflexivity]. ring.
      - rewrite elastic_new_force by (auto using cg_half_str). exact Hadj.
    Qed.
    Lemma now_fresh : (0 < c_nsurf c)%nat -> length (filter (comp c) (grid c)) = c_nsurf c -> fresh c 1 Fx.
    Proof.
      intros Hn Hl. destruct now_first as (s&Ha&Hf). exists s. split; auto. split; [|split; [|split]].
      - intros p. rewrite Hf. unfold spread. destruct (comp c p); [|lra].
        assert (0 < Fx / INR (c_nsurf c)) by (apply Rdiv_lt_0_compat; auto; apply lt_0_INR; auto).
        unfold Rdiv in *. lra.
      - apply (after_inv c 1 s (elastic_hard c El) Ha). lia.
      - rewrite carried_tot, Hf. apply tot_spread; auto.
      - right. split; auto. intros s0 H0. injection H0 as <-. exact Guess.
    Qed.
  End Nowhere.

  Section Settled.
    Hypothesis Li : linear (c_disp c).
    Hypothesis Sa : self_adjoint (grid c) (c_disp c).
    Hypothesis Co : compliant (grid c) (c_disp c).
    Hypothesis Cov : covers c.
    Variable C : P -> bool.
    Variables k m : nat.
    Hypothesis Hre : fresh c k Fx.
    Hypothesis Hse : settled c k m C.
    Local Notation st_at := (st_at c k).
    Local Notation N := (length (filter C (grid c))).

    Lemma ok i : (i <= m)%nat -> after c (k + i) = Ok (st_at i).
    Proof. exact (st_at_ok c C k m Hse i). Qed.
    Lemma ok_eq i s : after c (k + i) = Ok s -> st_at i = s.
    Proof. exact (st_at_eq c k i s). Qed.
    Lemma ok_good i : (i <= m)%nat -> good c C (st_at i).
    Proof.
      intros Hi. pose proof (ok i Hi) as Ha.
      destruct (Hse i Hi) as (s&Hs&Hin&Hcg). pose proof (ok_eq i s Hs) as Es. rewrite Es in *.
      destruct i as [|i].
      - destruct Hre as (s0&Ha0&Hnp&Hu&_). rewrite Nat.add_0_r in Hs. rewrite Hs in Ha0. injection Ha0 as <-.
        constructor; auto. destruct k as [|k']; [injection Hs as <-; apply pad_inv_init|].
        apply (after_inv c (S k') s (elastic_hard c El) Hs). lia.
      - destruct (after_inv c (k + S i) _ (elastic_hard c El) Ha ltac:(lia)) as [H1 H2].
        constructor; auto. replace (k + S i)%nat with (S (k + i)) in Ha by lia.
        apply (cg_nonpos _ _ Ha). apply Hcg. lia.
    Qed.
    Lemma ok_step i : (i < m)%nat -> step c (st_at i) (st_at (S i)).
    Proof.
      intros Hi. pose proof (ok i ltac:(lia)) as Ha. pose proof (ok (S i) ltac:(lia)) as Hb.
      split.
      - replace (k + S i)%nat with (S (k + i)) in Hb by lia. cbn [after] in Hb. rewrite Ha in Hb.
        destruct (iter K c (st_at i)) as [fu|]; [|discriminate]. injection Hb as Hb. eauto.
      - destruct (Hse (S i) ltac:(lia)) as (s&Hs&_&Hcg). rewrite (ok_eq _ _ Hs). apply Hcg. lia.
    Qed.
    Lemma ok_restart : s_delta (st_at 0) && Rltb 0 (s_Gold (st_at 0)) = false.
    Proof.
      destruct Hre as (s&Ha&_&_&_&[Hs|[Hk Hg]]); rewrite (ok_eq 0 s) by (rewrite Nat.add_0_r; auto).
      - rewrite (other_delta k s Ha Hs). reflexivity.
      - rewrite Hk in Ha. rewrite (now_gold (Hg _ eq_refl) s Ha). apply andb_false_intro2. apply Rltb_false. lra.
    Qed.
    Lemma ok_load : tot_force c (s_f (st_at 0)) = Fx.
    Proof.
      destruct Hre as (s&Ha&_&_&Ht&_). rewrite (ok_eq 0 s) by (rewrite Nat.add_0_r; auto). rewrite <- carried_tot. exact Ht.
    Qed.
    Lemma ok_ne : exists p, C p = true.
    Proof.
      destruct (existsb C (grid c)) eqn:E.
      - apply existsb_exists in E. destruct E as (p&_&Hp). eauto.
      - exfalso. pose proof ok_load as H. pose proof (ok_good 0 ltac:(lia)) as G. unfold tot_force in H.
        rewrite lsum_zero in H; [lra|]. intros p Hp.
        assert (Ec : C p = false).
        { destruct (C p) eqn:Ec; auto. assert (existsb C (grid c) = true) by (apply existsb_exists; eauto). congruence. }
        rewrite (good_out c C _ p G Ec). unfold bmul. destruct (comp c p); reflexivity.
    Qed.

    Lemma settled_load i s : (i <= m)%nat -> after c (k + i) = Ok s -> carried c s = Fx.
    Proof.
      intros Hi Ha. rewrite carried_tot.
      rewrite <- (ok_eq _ _ Ha).
      exact (ld_total c El Cov Fx Ext Pos C ok_ne st_at m ok_good ok_step ok_restart ok_load i Hi).
    Qed.
    Lemma settled_load_orthogonal i j si sj : (i < j)%nat -> (j <= m)%nat ->
      after c (k + i) = Ok si -> after c (k + j) = Ok sj ->
      lsum (filter C (grid c)) (fun p => level_gap c C si p * level_gap c C sj p) = 0.
    Proof.
      intros Hij Hj Hi' Hj'. rewrite <- (ok_eq _ _ Hi'), <- (ok_eq _ _ Hj').
      rewrite <- (ld_orthogonal c El Li Sa Co Cov Fx Ext Pos C ok_ne st_at m ok_good ok_step ok_restart ok_load i j Hij Hj).
      apply lsum_ext. intros p _. rewrite !(gp_level c El Cov Fx Ext C ok_ne) by (apply ok_good; lia). reflexivity.
    Qed.
    Lemma settled_load_closed s p : (pred N <= m)%nat -> after c (k + pred N) = Ok s -> C p = true ->
      level_gap c C s p = 0.
    Proof.
      intros Hm Ha Hp. rewrite <- (ok_eq _ _ Ha), <- (gp_level c El Cov Fx Ext C ok_ne) by (apply ok_good; lia).
      exact (ld_reaches c El Li Sa Co Cov Fx Ext Pos C ok_ne st_at m ok_good ok_step ok_restart ok_load Hm p Hp).
    Qed.
    Lemma settled_load_exact s : (N <= m)%nat -> after c (k + N) = Ok s ->
      exact_solution c (s_off s) (fun p => - s_f s p).
    Proof.
      intros Hm Ha. rewrite <- (ok_eq _ _ Ha).
      exact (ld_exact c El Li Sa Co Cov Fx Ext Pos C ok_ne st_at m ok_good ok_step ok_restart ok_load Hm).
    Qed.
    Lemma settled_load_stops n : tolerances_positive c -> (N <= m)%nat -> (k + N < n)%nat ->
      exists r, ccg c n = Ok r /\ x_success r = true /\ (x_nit r <= S (k + N))%nat.
    Proof.
      intros Tol Hm Hn. pose proof (ok _ Hm) as Ha.
      destruct (ld_conv c El Li Sa Co Cov Fx Ext Pos C ok_ne st_at m ok_good ok_step ok_restart ok_load Tol Hm) as (fu&Hi&Hc).
      apply (stops c n _ _ fu Ha Hi Hc Hn).
    Qed.
    (** The complementary energy, at whatever offset, never grows. *)
    Lemma settled_load_energy off i j si sj : (i <= j)%nat -> (j <= m)%nat ->
      after c (k + i) = Ok si -> after c (k + j) = Ok sj ->
      complementary_energy c off (s_f sj) <= complementary_energy c off (s_f si).
    Proof.
      intros Hij. revert sj. induction Hij as [|j Hij IH]; intros sj Hj Hi' Hj'.
      - rewrite Hi' in Hj'. injection Hj' as <-. lra.
      - pose proof (ok j ltac:(lia)) as Ha.
        specialize (IH _ ltac:(lia) Hi' Ha). refine (Rle_trans _ _ _ _ IH).
        pose proof (ld_force c El Cov Fx Ext Pos C ok_ne st_at m ok_good ok_step ok_restart ok_load j Hj) as Hf.
        pose proof (ld_sums c El Cov Fx Ext Pos C ok_ne st_at m ok_good ok_step ok_restart ok_load j ltac:(lia)) as [_ Hs].
        rewrite <- (ok_eq _ _ Hj').
        pose proof (ok_good j ltac:(lia)) as G. set (s := st_at j) in *.
        replace (s_f (st_at (S j))) with (fun p => s_f s p + h_tau (cg_half K c s) * tt c s p)
          by (apply functional_extensionality; intros; rewrite Hf; reflexivity).
        rewrite ce_line; auto.
        2:{ intros p Hp. apply (tt_out c El C s p G). destruct (C p) eqn:E; auto.
            rewrite (good_comp c C s p G E) in Hp. discriminate. }
        pose proof (tau_eq c El Co C s G) as T.
        assert (E1 : lsum (grid c) (fun p => tt c s p * (c_disp c (s_f s) p - c_h c p - off)) = dot (cl c C) (gp c s) (tt c s)).
        { rewrite (lsum_cl c C) by (intros p E; rewrite (tt_out c El C s p G E); ring).
          unfold dot. rewrite (lsum_ext (cl c C) _ (fun p => gp c s p * tt c s p + (h_off (cg_half K c s) - off) * tt c s p)).
          - rewrite (lsum_plus (cl c C) (fun p => gp c s p * tt c s p) (fun p => (h_off (cg_half K c s) - off) * tt c s p)).
            rewrite (lsum_scal (cl c C) _ (tt c s)), Hs. ring.
          - intros p _. rewrite (gp_half c C s p G). ring. }
        assert (E2 : lsum (grid c) (fun p => tt c s p * c_disp c (tt c s) p) = dot (cl c C) (c_disp c (tt c s)) (tt c s)).
        { rewrite (lsum_cl c C) by (intros p E; rewrite (tt_out c El C s p G E); ring).
          apply lsum_ext. intros; ring. }
        rewrite E1, E2, <- T.
        assert (W : 0 <= - dot (cl c C) (c_disp c (tt c s)) (tt c s)).
        { rewrite <- E2. destruct (Rlt_dec 0 (cg_x c s)) as [L|L].
          - rewrite (x_eq c El C s G), <- E2 in L. lra.
          - rewrite lsum_zero; [lra|]. intros p Hp. rewrite (x_zero c El Co C s G L p Hp). ring. }
        set (a := - dot (cl c C) (c_disp c (tt c s)) (tt c s)) in *.
        replace (dot (cl c C) (c_disp c (tt c s)) (tt c s)) with (- a) by (unfold a; ring).
        pose proof (Rmult_le_pos _ _ W (Rle_0_sqr (h_tau (cg_half K c s)))). unfold Rsqr in *. lra.
    Qed.
  End Settled.
End Run.
