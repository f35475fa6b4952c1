From Coq Require Import Reals Lra List Bool Arith Lia Permutation FunctionalExtensionality.
From Verif Require Import CCG_Model CCG_Real CCG_Spec CCG_Proofs CCG_Conv.
Import ListNotations.
Local Open Scope R_scope.

Section Results.
  Context {P : Type}.
  Notation K := (ROps P).
  Variable c : @cfg R P.

  (** ** The run as a chain of iterations *)
  Fixpoint chain (s : @state R P) (l : list (@full R P)) : Prop :=
    match l with
    | [] => True
    | fu :: l => iter K c s = Ok fu /\ chain (fu_state fu) l
    end.

  Fixpoint last_full (l : list (@full R P)) : option (@full R P) :=
    match l with
    | [] => None
    | [fu] => Some fu
    | _ :: l => last_full l
    end.

  Definition nonconv (l : list (@full R P)) : list (@full R P) :=
    filter (fun fu => negb (fu_conv fu)) l.

  Lemma loop_chain n : forall fuel s last evs r,
    loop K c n fuel s last = (evs, Ok r) ->
    exists l, chain s l /\ (length l <= fuel)%nat /\
      statuses evs = map (fun fu => r_str (fu_rep fu)) l /\
      callbacks evs = map (fun fu => (s_nit (fu_state fu), r_str (fu_rep fu))) (nonconv l) /\
      callback_forces evs = map (fun fu => s_f (fu_state fu)) (nonconv l) /\
      ((exists l' fu, l = l' ++ [fu] /\ r = converged_result K c fu /\ fu_conv fu = true /\
            Forall (fun f => fu_conv f = false) l' /\ forced_logs evs = [LConverged]) \/
       (length l = fuel /\ Forall (fun f => fu_conv f = false) l /\ forced_logs evs = [LNotConverged] /\
        exists fu, r = failed_result K c n fu /\
          match last_full l with None => last = Some fu | Some fu' => fu = fu' end)).
  Proof.
    induction fuel; intros s last evs r H; simpl in H.
    - destruct last as [fu|]; [|discriminate]. injection H as <- <-.
      exists []. simpl. repeat split; auto. right. repeat split; auto. eauto.
    - destruct (iter K c s) as [fu|e] eqn:E; [|discriminate].
      destruct (fu_conv fu) eqn:Ec.
      + injection H as <- <-. exists [fu]. simpl. unfold nonconv. simpl. rewrite Ec. simpl.
        repeat split; auto. lia. left. exists [], fu. auto.
      + destruct (loop K c n fuel (fu_state fu) (Some fu)) as [evs' r'] eqn:EL.
        injection H as <- ->.
        destruct (IHfuel _ _ _ _ EL) as (l&Hch&Hlen&Hst&Hcb&Hcf&Hend).
        exists (fu :: l). split; [simpl; auto|]. split; [simpl; lia|].
        set (pre := if (s_nit (fu_state fu) <? n)%nat
                    then [ELog (LStatus (s_str (fu_state fu))) false (fu_rep fu)] else []).
        assert (Hp1 : statuses pre = []) by (unfold pre; destruct (_ <? _)%nat; reflexivity).
        assert (Hp2 : callbacks pre = []) by (unfold pre; destruct (_ <? _)%nat; reflexivity).
        assert (Hp3 : callback_forces pre = []) by (unfold pre; destruct (_ <? _)%nat; reflexivity).
        assert (Hp4 : forced_logs pre = []) by (unfold pre; destruct (_ <? _)%nat; reflexivity).
        unfold statuses, callbacks, callback_forces, forced_logs in *.
        rewrite !flat_map_app, Hp1, Hp2, Hp3, Hp4. simpl.
        unfold nonconv in *. simpl. rewrite Ec. simpl. rewrite Hst, Hcb, Hcf.
        repeat (split; [reflexivity|]).
        destruct Hend as [(l'&fu'&->&->&Hc'&Hall&Hlog)|(Hl&Hall&Hlog&fu'&->&Hlast)].
        * left. exists (fu :: l'), fu'. repeat split; auto.
        * right. simpl. repeat split; auto. exists fu'. split; auto.
          destruct l; simpl in *; [congruence|].
          destruct (match l with [] => Some f | _ :: _ => last_full l end) eqn:EE; auto.
          clear - EE. exfalso. revert f EE. induction l; intros; [discriminate|]. simpl in EE. eapply IHl; eauto.
  Qed.

  Lemma second_half_str s h fu : second_half K c s h = Ok fu -> r_str (fu_rep fu) = s_str (fu_state fu).
  Proof.
    unfold second_half. destruct (max_pres K c h); [|discriminate]. intros H; injection H as <-. reflexivity.
  Qed.

  Lemma chain_nit : forall l s, chain s l ->
    map (fun fu => s_nit (fu_state fu)) l = seq (S (s_nit s)) (length l).
  Proof.
    induction l as [|fu l IH]; intros s H; simpl; auto.
    destruct H as [H1 H2]. apply iter_inv in H1.
    destruct H1 as (h&mp&_&_&_&_&_&_&_&_&_&En&_). f_equal; auto. rewrite (IH _ H2), En. reflexivity.
  Qed.

  Lemma iter_nfev s fu : iter K c s = Ok fu ->
    (s_nfev (fu_state fu) = s_nfev s + (if is_mix (r_str (fu_rep fu)) then 1 else 2))%nat.
  Proof.
    intros H. apply iter_inv in H. destruct H as (h&mp&Hf&_&_&_&_&_&_&Es&_&_&En&_&_&_&H2).
    rewrite (second_half_str _ _ _ H2), Es, En.
    apply first_half_cases in Hf. destruct Hf as [->|[hd [_ [_ Hm]]]].
    - unfold new_str. rewrite cg_half_str. change (h_nfev (cg_half K c s)) with (S (s_nfev s)).
      destruct (any_nc K c _); simpl; lia.
    - apply mix_half_inv in Hm. destruct Hm as (E1&_&_&_&_&E2&_). unfold new_str. rewrite E1, E2. simpl. lia.
  Qed.

  Lemma chain_nfev : forall l s fu, chain s (l ++ [fu]) ->
    (s_nfev (fu_state fu) + count_mix (map (fun f => r_str (fu_rep f)) (l ++ [fu]))
      = s_nfev s + 2 * length (l ++ [fu]))%nat.
  Proof.
    induction l as [|f l IH]; intros s fu H; cbn [app chain] in H; destruct H as [H1 H2].
    - apply iter_nfev in H1. simpl. unfold count_mix. simpl.
      destruct (is_mix (r_str (fu_rep fu))); simpl; lia.
    - apply iter_nfev in H1. specialize (IH _ _ H2). cbn [app map length].
      unfold count_mix in *. simpl. destruct (is_mix (r_str (fu_rep f))); simpl; lia.
  Qed.

  Lemma last_full_app l fu : last_full l = Some fu -> exists l', l = l' ++ [fu].
  Proof.
    induction l as [|f l IH]; [discriminate|].
    destruct l as [|f' l].
    - simpl. intros H; injection H as ->. exists []. reflexivity.
    - intros H. change (last_full (f' :: l) = Some fu) in H.
      destruct (IH H) as [l' E]. exists (f :: l'). rewrite E. reflexivity.
  Qed.

  Lemma nonconv_all l : Forall (fun f => fu_conv f = false) l -> nonconv l = l.
  Proof.
    unfold nonconv. induction 1; simpl; auto. rewrite H. simpl. congruence.
  Qed.

  Lemma counters n evs r : run_trace K c n = (evs, Ok r) ->
    (1 <= x_nit r <= n)%nat /\
    length (statuses evs) = x_nit r /\
    (x_nfev r + count_mix (statuses evs) = 1 + 2 * x_nit r)%nat /\
    ((x_success r = true /\ x_message r = PolonskyConverged /\ forced_logs evs = [LConverged] /\
        map fst (callbacks evs) = seq 1 (x_nit r - 1)) \/
     (x_success r = false /\ x_message r = ReachedMaxiter n /\ x_nit r = n /\
        forced_logs evs = [LNotConverged] /\ map fst (callbacks evs) = seq 1 n)).
  Proof.
    unfold run_trace. intros H. apply loop_chain in H.
    destruct H as (l&Hch&Hlen&Hst&Hcb&_&Hend).
    pose proof (chain_nit _ _ Hch) as Hnit. change (s_nit (init_state K c)) with O in Hnit.
    destruct Hend as [(l'&fu&->&->&Hc'&Hall&Hlog)|(Hl&Hall&Hlog&fu&->&Hlast)].
    - pose proof (chain_nfev _ _ _ Hch) as Hnf. change (s_nfev (init_state K c)) with 1%nat in Hnf.
      rewrite app_length in *. simpl in *.
      assert (En : s_nit (fu_state fu) = (length l' + 1)%nat).
      { rewrite map_app, seq_app in Hnit.
        simpl in Hnit. apply app_inj_tail in Hnit. destruct Hnit as [_ Hn]. simpl in Hn. lia. }
      rewrite En, Hst, map_length, app_length. simpl.
      split; [lia|]. split; [auto|]. split; [lia|].
      left. repeat split; auto. rewrite Hcb. unfold nonconv. rewrite filter_app. simpl.
      rewrite Hc'. simpl. rewrite app_nil_r. fold (nonconv l'). rewrite nonconv_all by auto.
      rewrite map_map. simpl.
      replace (length l' + 1 - 1)%nat with (length l') by lia.
      rewrite map_app, seq_app in Hnit. simpl in Hnit. apply app_inj_tail in Hnit. tauto.
    - destruct (last_full l) as [fu'|] eqn:EL; [|discriminate]. subst fu'.
      apply last_full_app in EL. destruct EL as [l' ->].
      pose proof (chain_nfev _ _ _ Hch) as Hnf. change (s_nfev (init_state K c)) with 1%nat in Hnf.
      rewrite Hcb, nonconv_all by auto. rewrite map_map. simpl.
      rewrite Hst, map_length.
      rewrite app_length in *. simpl in *.
      assert (En : s_nit (fu_state fu) = (length l' + 1)%nat).
      { rewrite map_app, seq_app in Hnit. simpl in Hnit. apply app_inj_tail in Hnit.
        destruct Hnit as [_ Hn]. simpl in Hn. lia. }
      rewrite En. split; [lia|]. split; [lia|]. split; [lia|].
      right. split; [auto|]. split; [auto|]. split; [lia|]. split; [auto|]. rewrite Hnit. f_equal; lia.
  Qed.

  (** The status in the result is the last one of the history. *)
  Lemma last_status n evs r : run_trace K c n = (evs, Ok r) ->
    nth_error (statuses evs) (x_nit r - 1) = Some (x_str r).
  Proof.
    intros H. assert (Hc := counters _ _ _ H). destruct Hc as (_&Hl&_).
    unfold run_trace in H. apply loop_chain in H. destruct H as (l&Hch&_&Hst&_&_&Hend).
    assert (E : exists l' fu, l = l' ++ [fu] /\ x_str r = s_str (fu_state fu)).
    { destruct Hend as [(l'&fu&->&->&_)|(_&_&_&fu&->&Hlast)]; eauto.
      destruct (last_full l) as [fu'|] eqn:EL; [|discriminate]. subst fu'.
      apply last_full_app in EL. destruct EL as [l' ->]. eauto. }
    destruct E as (l'&fu&->&->). rewrite <- Hl, Hst, map_length, app_length, map_app. simpl.
    rewrite nth_error_app2 by (rewrite map_length; lia). rewrite map_length.
    replace (length l' + 1 - 1 - length l')%nat with O by lia. simpl. f_equal.
    assert (G : exists s, iter K c s = Ok fu).
    { clear -Hch. revert Hch. generalize (init_state K c). induction l'; simpl; intros s [H1 H2]; eauto. }
    destruct G as [s G]. unfold iter in G. destruct (first_half K c s) as [h|]; [|discriminate].
    eapply second_half_str; eauto.
  Qed.

  (** ** Mixing blocks *)
  Lemma iter_mix s fu : iter K c s = Ok fu ->
    (r_str (fu_rep fu) = Mix ->
       s_mixsteps (fu_state fu) = Nat.pred (if is_mix (s_str s) then s_mixsteps s else c_minmix c)) /\
    (is_mix (r_str (fu_rep fu)) = false -> c_hard c <> None -> s_mixsteps s = O) /\
    s_str (fu_state fu) = r_str (fu_rep fu) /\ (c_hard c = None -> is_mix (r_str (fu_rep fu)) = false).
  Proof.
    intros H. apply iter_inv in H. destruct H as (h&mp&Hf&_&_&_&_&_&_&Es&_&_&_&Em&_&_&H2).
    pose proof (second_half_str _ _ _ H2) as Er. rewrite Er, Es, Em.
    unfold first_half in Hf. destruct (c_hard c) as [hd|] eqn:Eh.
    - destruct (do_cg K c s) eqn:Ed.
      + injection Hf as <-. split; [|split; [|split; [auto|discriminate]]].
        * unfold new_str. rewrite cg_half_str. destruct (any_nc K c _); discriminate.
        * intros _ _. unfold do_cg in Ed. rewrite Eh in Ed. apply andb_true_iff in Ed.
          destruct Ed as [_ Ed]. apply Nat.leb_le in Ed. lia.
      + apply mix_half_inv in Hf. destruct Hf as (E1&_&_&_&_&_&E2&_).
        unfold new_str. rewrite E1. simpl. repeat split; auto; try discriminate.
    - injection Hf as <-. unfold new_str. rewrite cg_half_str.
      split; [destruct (any_nc K c _); discriminate|]. split; [congruence|].
      split; auto. destruct (any_nc K c _); auto.
  Qed.

  (** [k] more mixing steps are due. *)
  Lemma chain_mix_due : forall l s, c_hard c <> None -> chain s l ->
    s_str s = Mix -> forall j, (j < s_mixsteps s)%nat -> (j < length l)%nat ->
    nth_error (map (fun fu => r_str (fu_rep fu)) l) j = Some Mix.
  Proof.
    induction l as [|fu l IH]; intros s Hh H Hs j Hj Hl; simpl in *; [lia|].
    destruct H as [H1 H2]. apply iter_mix in H1. destruct H1 as (M1&M2&M3&_).
    assert (r_str (fu_rep fu) = Mix).
    { destruct (is_mix (r_str (fu_rep fu))) eqn:E.
      - destruct (r_str (fu_rep fu)); try discriminate; auto.
      - specialize (M2 eq_refl Hh). lia. }
    destruct j; simpl; [now rewrite H|].
    specialize (M1 H). rewrite Hs in M1. simpl in M1. rewrite H in M3.
    eapply IH; eauto; lia.
  Qed.

  Lemma chain_mix_block : forall l s i j, c_hard c <> None -> chain s l ->
    nth_error (map (fun fu => r_str (fu_rep fu)) l) i = Some Mix ->
    (match i with O => s_str s <> Mix
     | S i' => nth_error (map (fun fu => r_str (fu_rep fu)) l) i' <> Some Mix end) ->
    (i <= j < i + c_minmix c)%nat -> (j < length l)%nat ->
    nth_error (map (fun fu => r_str (fu_rep fu)) l) j = Some Mix.
  Proof.
    induction l as [|fu l IH]; intros s i j Hh H Hi Hprev Hj Hl; simpl in *; [lia|].
    destruct H as [H1 H2]. pose proof (iter_mix _ _ H1) as (M1&M2&M3&_).
    destruct i.
    - simpl in Hi. injection Hi as Hi. specialize (M1 Hi).
      destruct j; [simpl; now rewrite Hi|]. simpl.
      rewrite Hi in M3. eapply chain_mix_due; eauto; [|lia].
      rewrite M1. destruct (s_str s); simpl; try lia. congruence.
    - destruct j; [lia|]. simpl in *. eapply IH; eauto; [|lia|lia].
      destruct i; auto. rewrite M3. simpl in Hprev. congruence.
  Qed.

  Lemma mix_blocks n evs r i j : run_trace K c n = (evs, Ok r) ->
    nth_error (statuses evs) i = Some Mix ->
    (i = O \/ nth_error (statuses evs) (i - 1) <> Some Mix) ->
    (i <= j < i + c_minmix c)%nat -> (j < length (statuses evs))%nat ->
    nth_error (statuses evs) j = Some Mix.
  Proof.
    unfold run_trace. intros H. apply loop_chain in H.
    destruct H as (l&Hch&_&Hst&_). rewrite Hst. rewrite map_length.
    intros Hi Hp Hj Hl.
    assert (Hh : c_hard c <> None).
    { intros Hn. clear - Hch Hi Hn. revert i Hi. generalize dependent (init_state K c).
      induction l as [|fu l IH]; intros s H i Hi; destruct i; try discriminate; simpl in *; destruct H as [H1 H2].
      - apply iter_mix in H1. destruct H1 as (_&_&_&M). specialize (M Hn). injection Hi as Hi.
        rewrite Hi in M. discriminate.
      - eapply IH; eauto. }
    eapply chain_mix_block; eauto.
    destruct i; [discriminate|]. destruct Hp as [Hp|Hp]; [lia|]. simpl in Hp.
    now rewrite Nat.sub_0_r in Hp.
  Qed.

  Lemma elastic_never_mixes n evs r : c_hard c = None -> run_trace K c n = (evs, Ok r) ->
    ~ In Mix (statuses evs).
  Proof.
    unfold run_trace. intros Hn H. apply loop_chain in H.
    destruct H as (l&Hch&_&Hst&_). rewrite Hst. clear Hst.
    revert Hch. generalize (init_state K c). induction l as [|fu l IH]; simpl; auto.
    intros s [H1 H2] [H|H].
    - apply iter_mix in H1. destruct H1 as (_&_&_&M). specialize (M Hn). rewrite H in M. discriminate.
    - eapply IH; eauto.
  Qed.

  (** ** Callback forces: zero off the surface *)
  Lemma callback_zero n evs r : hardness_nonneg c -> run_trace K c n = (evs, r) ->
    forall f, In f (callback_forces evs) -> forall p, ~ on_surface c p -> f p = 0.
  Proof.
    intros Hh. unfold run_trace.
    assert (G : forall fuel s last evs r, pad_inv c s -> loop K c n fuel s last = (evs, r) ->
      forall f, In f (callback_forces evs) -> forall p, ~ on_surface c p -> f p = 0).
    { induction fuel; intros s last evs' r' HI H f Hf p Hp; simpl in H.
      - destruct last; injection H as <- <-; destruct Hf.
      - destruct (iter K c s) as [fu|e] eqn:E; [|injection H as <- <-; destruct Hf].
        pose proof (pad_inv_step c Hh s fu HI E) as HI'.
        destruct (fu_conv fu).
        + injection H as <- <-. destruct Hf.
        + destruct (loop K c n fuel (fu_state fu) (Some fu)) as [ev2 r2] eqn:EL.
          injection H as <- <-. unfold callback_forces in Hf. rewrite flat_map_app in Hf.
          apply in_app_or in Hf. destruct Hf as [Hf|Hf].
          * rewrite flat_map_app in Hf. apply in_app_or in Hf. destruct Hf as [Hf|Hf].
            -- destruct (_ <? _)%nat; simpl in Hf; tauto.
            -- simpl in Hf. destruct Hf as [<-|[]]. apply comp_false in Hp. apply HI'. auto.
          * eapply IHfuel; eauto. }
    intros H. eapply G; eauto. apply pad_inv_init.
  Qed.
End Results.
