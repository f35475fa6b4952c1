(** A hardness that is never reached changes nothing. *)
From Coq Require Import Reals Lra List Bool Arith Lia FunctionalExtensionality.
From Verif Require Import CCG_Model CCG_Real CCG_Spec CCG_Proofs CCG_Conv.
Import ListNotations.
Local Open Scope R_scope.

(** The same calculation with hardness [H]. *)
Definition harden {P} (H : R) (c : @cfg R P) : @cfg R P :=
  mkCfg (c_ranks c) (c_slice c) (c_masked c) (c_h c) (c_disp c) (c_force c) (Some (HScalar H)) (c_ext c) (c_offset c)
    (c_u0 c) (c_f0 c) (c_pentol c) (c_forcetol c) (c_thermotol c) (c_mixfac c) (c_mixdec c) (c_minmix c) (c_nsurf c) (c_bisect c).
(** The same result without the flow mask. *)
Definition unmarked {P} (r : @sresult R P) : @sresult R P :=
  mkResult (x_x r) (x_jac r) (x_active r) None (x_fun r) (x_offset r) (x_success r) (x_message r) (x_nit r) (x_nfev r)
    (x_maxpen r) (x_maxpres r) (x_str r) (x_tau r).

Section Harden.
  Context {P : Type}.
  Local Notation K := (ROps P).
  Variables (c : @cfg R P) (H : R).
  Hypothesis El : elastic c.
  Hypothesis Ec : offset_control c.
  Hypothesis PH : 0 < H.
  Local Notation c' := (harden H c).

  Lemma same_set s : (forall p, - H < s_f s p) -> cg_set K c' s = cg_set K c s.
  Proof.
    intros L. unfold cg_set. cbn [harden c_hard]. rewrite El. apply functional_extensionality. intros p. cbn [hval oopp oltb o0 ROps].
    assert (E : Rltb (- H) (s_f s p) = true) by (apply Rltb_true; apply L). rewrite E. apply andb_true_r.
  Qed.
  Lemma same_half s : (forall p, - H < s_f s p) -> cg_half K c' s = cg_half K c s.
  Proof.
    intros L. unfold cg_half. rewrite (same_set s L). reflexivity.
  Qed.
  Lemma same_iter s fu : iter K c s = Ok fu -> s_mixsteps s = O -> (exists p, In p (grid c) /\ s_f s p < 0) -> (forall p, - H < s_f s p) ->
    (forall p, - H < s_f (fu_state fu) p) ->
    exists fu', iter K c' s = Ok fu' /\ fu_state fu' = fu_state fu /\ fu_conv fu' = fu_conv fu /\ fu_rep fu' = fu_rep fu
      /\ fu_half fu' = fu_half fu.
  Proof.
    intros Hi M (q & Iq & Cq) L L'. pose proof Hi as Hj. apply iter_inv in Hj.
    destruct Hj as (h & mp & Hf & Hm & Eh & Ef & _ & _ & _ & _ & _ & _ & _ & _ & _ & _ & H2).
    pose proof (elastic_first c s h El Hf) as Eq.
    assert (Hs : is_mix (h_str h) = false) by (rewrite Eq; apply cg_half_str).
    assert (DC : do_cg K c' s = true).
    { unfold do_cg. cbn [harden c_hard c_ranks]. rewrite M, (same_set s L).
      assert (E : cg_set K c s = contact_set K s).
      { apply functional_extensionality. intros p. unfold cg_set. rewrite El. reflexivity. }
      rewrite E. assert (PC : Nat.ltb 0 (rcount (c_ranks c) (contact_set K s)) = true).
      { apply rcount_pos. exists q. split; [exact Iq|]. unfold contact_set. apply Rltb_true. exact Cq. }
      rewrite PC. cbn [andb Nat.leb]. apply Nat.ltb_lt in PC. rewrite andb_true_r. apply Nat.ltb_lt. lia. }
    assert (Hf' : first_half K c' s = Ok h).
    { unfold first_half. cbn [harden c_hard]. rewrite DC. rewrite (same_half s L), <- Eq. reflexivity. }
    (* no point flows *)
    assert (NF : forall p, mask_flowing K c' h p = false).
    { intros p. unfold mask_flowing. cbn [harden c_hard hval oopp ROps]. apply leb_false. specialize (L' p). rewrite Ef in L'.
      destruct (Rlt_dec (- H) (h_f h p)) as [Q|Q]; [exact Q|]. exfalso. apply Rnot_lt_le in Q.
      assert (T : h_f h p < 0) by lra.
      assert (F : new_force K c h p = h_f h p).
      { unfold new_force. rewrite Hs.
        assert (F3 : clip_flow K c h (adjust_force K c (clip_tensile K h)) p = h_f h p).
        { unfold clip_flow, adjust_force. rewrite El, Ec. destruct (clip_tensile_cases h p) as [[_ E]|[E _]]; [exact E|lra]. }
        destruct (any_nc K c h); [|exact F3].
        change ((if comp c p then clip_flow K c h (adjust_force K c (clip_tensile K h)) p + h_tau h * bmul K (nc_set K c h p) (h_g h p)
                 else clip_flow K c h (adjust_force K c (clip_tensile K h)) p) = h_f h p).
        rewrite F3. destruct (comp c p) eqn:EC; [|reflexivity].
        assert (NC : nc_set K c h p = false).
        { unfold nc_set, mask_tensile, mask_flowing. rewrite El. cbn [andb orb].
          assert (E : leb K (o0 K) (h_f h p) = false) by (apply leb_false; exact T). rewrite E. cbn [andb orb]. apply andb_false_r. }
        rewrite NC. unfold bmul. cbn [o0 ROps]. ring. }
      lra. }
    assert (NFZ : mask_flowing K c' h = fun _ => false) by (apply functional_extensionality; exact NF).
    assert (NFC : mask_flowing K c h = fun _ => false) by (unfold mask_flowing; rewrite El; reflexivity).
    assert (ENC : nc_set K c' h = nc_set K c h).
    { unfold nc_set. rewrite NFZ, NFC. reflexivity. }
    assert (EAN : any_nc K c' h = any_nc K c h) by (unfold any_nc; rewrite ENC; reflexivity).
    assert (ECF : forall f, clip_flow K c' h f = clip_flow K c h f).
    { intros f. unfold clip_flow. cbn [harden c_hard]. rewrite NFZ, El. apply functional_extensionality. reflexivity. }
    assert (ENF : new_force K c' h = new_force K c h).
    { unfold new_force. rewrite ECF, ENC, EAN. reflexivity. }
    assert (ENS : new_str K c' h = new_str K c h) by (unfold new_str; rewrite EAN; reflexivity).
    assert (END : new_delta K c' h = new_delta K c h) by (unfold new_delta; rewrite EAN; reflexivity).
    assert (EMP : max_pres K c' h = max_pres K c h).
    { unfold max_pres. cbn [harden c_hard c_ranks]. rewrite El, NFZ. cbn [oeqb o0 ROps].
      assert (E : Reqb H 0 = false) by (apply Reqb_false; lra). rewrite E.
      assert (Z : Nat.ltb 0 (rcount (c_ranks c) (fun _ => false)) = false) by (apply rcount_zero; reflexivity).
      rewrite Z. reflexivity. }
    assert (E2 : second_half K c' s h = second_half K c s h).
    { unfold second_half. rewrite EMP, ENF, ENS, END, ENC, NFZ, NFC. reflexivity. }
    exists fu. unfold iter. rewrite Hf', E2, H2. auto.
  Qed.

  Lemma elastic_mixsteps k s : after c k = Ok s -> s_mixsteps s = O /\ s_nit s = k.
  Proof.
    revert s. induction k as [|k IH]; intros s A.
    - assert (E : s = init_state K c) by (cbn [after] in A; congruence). subst. split; reflexivity.
    - cbn [after] in A. destruct (after c k) as [s0|] eqn:E0; [|discriminate]. destruct (iter K c s0) as [fu|] eqn:Ei; [|discriminate].
      assert (E : s = fu_state fu) by congruence. subst s. apply iter_inv in Ei.
      destruct Ei as (h & mp & Hf & _ & _ & _ & _ & _ & _ & _ & _ & En & _ & Em & _). rewrite Em, En.
      apply (elastic_first c s0 h El) in Hf. subst h. destruct (IH s0 eq_refl) as [I1 I2]. split; [exact I1|]. rewrite I2. reflexivity.
  Qed.
  Lemma loop_nit n fuel fu r : snd (loop K c n fuel (fu_state fu) (Some fu)) = Ok r -> (s_nit (fu_state fu) <= x_nit r)%nat.
  Proof.
    revert fu. induction fuel as [|fuel IH]; intros fu; cbn [loop].
    - cbn [snd]. intros E. injection E as <-. apply Nat.le_refl.
    - destruct (iter K c (fu_state fu)) as [fu'|e] eqn:Ei; [|discriminate].
      assert (En : s_nit (fu_state fu') = S (s_nit (fu_state fu))).
      { apply iter_inv in Ei. destruct Ei as (h & mp & _ & _ & _ & _ & _ & _ & _ & _ & _ & En & _). exact En. }
      destruct (fu_conv fu').
      + cbn [snd]. intros E. injection E as <-. cbn [converged_result x_nit]. lia.
      + specialize (IH fu'). destruct (loop K c n fuel (fu_state fu') (Some fu')) as [e1 r1]. cbn [snd] in *. intros E. specialize (IH E). lia.
  Qed.

  Lemma harden_loop n fuel k s last r : after c k = Ok s -> snd (loop K c n fuel s last) = Ok r ->
    (forall k s, (k <= x_nit r)%nat -> after c k = Ok s -> (exists p, In p (grid c) /\ s_f s p < 0) /\ forall p, - H < s_f s p) ->
    (k <= x_nit r)%nat ->
    fst (loop K c' n fuel s last) = fst (loop K c n fuel s last)
    /\ exists r', snd (loop K c' n fuel s last) = Ok r' /\ unmarked r' = r.
  Proof.
    revert k s last. induction fuel as [|fuel IH]; intros k s last A HR Hit KN; cbn [loop] in *.
    - destruct last as [fu|]; cbn [fst snd] in *; [|discriminate]. split; [reflexivity|]. injection HR as <-. eexists. split; reflexivity.
    - destruct (iter K c s) as [fu|e] eqn:Ei; [|discriminate].
      assert (A' : after c (S k) = Ok (fu_state fu)) by (cbn [after]; rewrite A, Ei; reflexivity).
      pose proof (proj2 (elastic_mixsteps (S k) _ A')) as NI.
      assert (KN' : (S k <= x_nit r)%nat).
      { rewrite <- NI. destruct (fu_conv fu); [cbn [snd] in HR; injection HR as <-; apply Nat.le_refl|].
        apply (loop_nit n fuel fu r). destruct (loop K c n fuel (fu_state fu) (Some fu)); exact HR. }
      destruct (Hit k s KN A) as [H1 H2]. destruct (Hit (S k) _ KN' A') as [_ H3].
      destruct (same_iter s fu Ei (proj1 (elastic_mixsteps k s A)) H1 H2 H3) as (fu' & Ei' & E1 & E2 & E3 & E4).
      assert (EF : fu' = fu) by (destruct fu, fu'; cbn in *; congruence). subst fu'. rewrite Ei'.
      destruct (fu_conv fu); cbn [fst snd] in *.
      + split; [reflexivity|]. injection HR as <-. eexists. split; [reflexivity|]. unfold unmarked, converged_result. cbn.
        unfold elastic in El. rewrite El. reflexivity.
      + specialize (IH (S k) (fu_state fu) (Some fu) A').
        destruct (loop K c' n fuel (fu_state fu) (Some fu)) as [e1 r1]. destruct (loop K c n fuel (fu_state fu) (Some fu)) as [e2 r2].
        cbn [fst snd] in *. destruct (IH HR Hit KN') as [I1 I2]. split; [rewrite I1; reflexivity|exact I2].
  Qed.
  (** [x_nit r] iterations. *)
  Lemma harden_run n r : ccg c n = Ok r ->
    (forall k s, (k <= x_nit r)%nat -> after c k = Ok s -> (exists p, In p (grid c) /\ s_f s p < 0) /\ forall p, - H < s_f s p) ->
    fst (run_trace K c' n) = fst (run_trace K c n) /\ exists r', ccg c' n = Ok r' /\ unmarked r' = r.
  Proof.
    intros HR Hit. exact (harden_loop n n O (init_state K c) None r eq_refl HR Hit (Nat.le_0_l _)).
  Qed.
End Harden.
