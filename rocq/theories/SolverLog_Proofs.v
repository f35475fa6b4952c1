(** * Proofs about the log of the solver *)
From Coq Require Import Reals ZArith Lra Lia List Arith Bool Ascii String FunctionalExtensionality.
From Verif Require Import Py Logger_Model Logger_Spec CCG_Model CCG_Real CCG_Spec CCG_Proofs CCG_Conv
  CCG_Results SolverLog_Model SolverLog_Spec.
From Coq Require Import List.
Import ListNotations.
Local Open Scope string_scope.
Local Open Scope list_scope.
Local Open Scope R_scope.

Section Logs.
  Context {P : Type}.
  Variable c : @cfg R P.
  Notation K := (ROps P).

  Definition logs (evs : list (@event R P)) : list (label * bool * @report R) :=
    flat_map (fun e => match e with ELog l b r => [(l, b, r)] | _ => [] end) evs.
  Definition quiet (fu : @full R P) : label * bool * @report R :=
    (LStatus (s_str (fu_state fu)), false, fu_rep fu).

  Lemma loop_logs n : forall fuel s last evs o,
    (s_nit s + fuel = n)%nat -> loop K c n fuel s last = (evs, o) ->
    exists l, chain c s l /\ (List.length l <= fuel)%nat /\
      callback_forces evs = map (fun fu => s_f (fu_state fu)) (nonconv l) /\
      statuses evs = map (fun fu => r_str (fu_rep fu)) l /\
      match o with
      | Ok r =>
        (exists l' fu, l = l' ++ [fu] /\ Forall (fun f => fu_conv f = false) l' /\
          ((fu_conv fu = true /\ r = converged_result K c fu /\
            logs evs = map quiet l' ++ [(LConverged, true, fu_rep fu)]) \/
           (fu_conv fu = false /\ r = failed_result K c n fu /\
            logs evs = map quiet l' ++ [(LNotConverged, true, fu_rep fu)]))) \/
        (exists fu, fuel = O /\ last = Some fu /\ l = [] /\ r = failed_result K c n fu /\
            logs evs = [(LNotConverged, true, fu_rep fu)])
      | Raise _ => logs evs = map quiet l /\ Forall (fun f => fu_conv f = false) l
      end.
  Proof.
    induction fuel; intros s last evs o N H.
    - cbn [loop] in H. exists []. split; [exact Logic.I|]. split; [cbn; lia|].
      destruct last as [fu|]; injection H as <- <-.
      + split; [reflexivity|]. split; [reflexivity|]. right. exists fu. repeat (split; [reflexivity|]). reflexivity.
      + split; [reflexivity|]. split; [reflexivity|]. split; [reflexivity|constructor].
    - cbn [loop] in H. destruct (iter K c s) as [fu|e] eqn:E.
      2:{ injection H as <- <-. exists []. split; [exact Logic.I|]. split; [cbn; lia|]. repeat split; constructor. }
      destruct (fu_conv fu) eqn:Ec.
      + injection H as <- <-. exists [fu]. split; [split; [exact E|exact Logic.I]|]. split; [cbn; lia|].
        unfold nonconv. cbn [filter]. rewrite Ec. split; [reflexivity|]. split; [reflexivity|].
        left. exists [], fu. split; [reflexivity|]. split; [constructor|]. left. auto.
      + destruct (loop K c n fuel (fu_state fu) (Some fu)) as [evs' r'] eqn:EL.
        injection H as <- ->.
        assert (NI : s_nit (fu_state fu) = S (s_nit s)).
        { apply iter_inv in E. destruct E as (h&mp&_&_&_&_&_&_&_&_&_&En&_). exact En. }
        assert (N' : (s_nit (fu_state fu) + fuel = n)%nat) by lia.
        destruct (IHfuel _ _ _ _ N' EL) as (l&Hch&Hlen&Hcf&Hst&Hend).
        exists (fu :: l). split; [split; assumption|]. split; [cbn [List.length]; lia|].
        set (b := (s_nit (fu_state fu) <? n)%nat) in *.
        set (pre := if b then [ELog (LStatus (s_str (fu_state fu))) false (fu_rep fu)] else []) in *.
        assert (Hp1 : statuses pre = []) by (unfold pre; destruct b; reflexivity).
        assert (Hp3 : callback_forces pre = []) by (unfold pre; destruct b; reflexivity).
        assert (Hp4 : logs pre = if b then [quiet fu] else []) by (unfold pre; destruct b; reflexivity).
        unfold statuses, callback_forces, logs in *.
        rewrite !flat_map_app, Hp1, Hp3, Hp4. cbn [app flat_map]. rewrite Hst, Hcf, app_nil_r.
        unfold nonconv. cbn [filter]. rewrite Ec. cbn [negb]. split; [reflexivity|]. split; [reflexivity|].
        destruct o as [r|e].
        * destruct Hend as [(l'&fu'&->&A&Hend)|(fu'&->&L&->&Hr&Hl)].
          -- left. exists (fu :: l'), fu'. split; [reflexivity|]. split; [constructor; assumption|].
             assert (B : b = true).
             { unfold b. apply Nat.ltb_lt. rewrite app_length in Hlen. cbn [List.length] in Hlen. lia. }
             rewrite B. destruct Hend as [(X1&X2&X3)|(X1&X2&X3)]; [left|right]; rewrite X3; auto.
          -- injection L as <-. left. exists [], fu. split; [reflexivity|]. split; [constructor|]. right.
             assert (B : b = false) by (unfold b; apply Nat.ltb_ge; lia). rewrite B, Hl. auto.
        * destruct Hend as [H1 H2]. split; [|constructor; assumption].
          assert (B : b = true).
          { unfold b. apply Nat.ltb_lt. destruct fuel; [|lia]. cbn [loop] in EL. discriminate. }
          rewrite B, H1. reflexivity.
  Qed.

  Lemma chain_nth : forall l s i fu, chain c s l -> nth_error l i = Some fu ->
    exists s0, iter K c s0 = Ok fu /\ s_nit s0 = (s_nit s + i)%nat /\
      match i with O => s0 = s | S j => exists fj, nth_error l j = Some fj /\ s0 = fu_state fj end.
  Proof.
    induction l as [|f l IH]; intros s i fu H E; [destruct i; discriminate|]. destruct H as [H1 H2]. destruct i as [|i].
    - injection E as <-. exists s. rewrite Nat.add_0_r. auto.
    - cbn [nth_error] in E. destruct (IH _ _ _ H2 E) as (s0&I0&N0&D).
      assert (NI : s_nit (fu_state f) = S (s_nit s)).
      { apply iter_inv in H1. destruct H1 as (h&mp&_&_&_&_&_&_&_&_&_&En&_). exact En. }
      exists s0. split; [exact I0|]. split; [lia|]. destruct i as [|j].
      + exists f. split; [reflexivity|exact D].
      + destruct D as (fj&Ej&D). exists fj. split; [exact Ej|exact D].
  Qed.
  Lemma chain_pad : hardness_nonneg c -> forall l s i fu, pad_inv c s -> chain c s l -> nth_error l i = Some fu ->
    pad_inv c (fu_state fu).
  Proof.
    intros Hh. induction l as [|f l IH]; intros s i fu Hs H E; [destruct i; discriminate|]. destruct H as [H1 H2].
    pose proof (pad_inv_step c Hh s f Hs H1) as HI. destruct i as [|i].
    - injection E as <-. exact HI.
    - eapply IH; eauto.
  Qed.

  Lemma bmul_comp f : - rsum K (c_ranks c) (fun p => bmul K (comp c p) (f p)) = load c f.
  Proof.
    rewrite rsum_lsum. unfold load, surface_list, grid. fold (comp c).
    generalize (concat (c_ranks c)). intros l. change (fun p => c_slice c p && negb (c_masked c p)) with (comp c).
    induction l as [|p l IH]; unfold lsum in *; cbn [map fold_right filter]; [cbn; lra|].
    unfold bmul at 1. destruct (comp c p); cbn [map fold_right]; cbn [ROps o0] in *; lra.
  Qed.

  (** What the report of an iteration says. *)
  Lemma iter_report s fu : iter K c s = Ok fu ->
    let rep := fu_rep fu in let h := fu_half fu in
    r_it rep = S (s_nit s) /\ r_str rep = s_str (fu_state fu) /\
    r_Acontact rep = rcount (c_ranks c) (contact_set K s) /\
    r_Acg rep = rcount (c_ranks c) (cg_set K c s) /\
    r_total rep = load c (s_f (fu_state fu)) /\ r_off rep = s_off (fu_state fu) /\
    r_tau rep = s_tau (fu_state fu) /\ r_mixfac rep = s_mixfac (fu_state fu) /\
    r_Afl rep = rcount (c_ranks c) (mask_flowing K c h) /\
    first_half K c s = Ok h /\ s_f (fu_state fu) = new_force K c h.
  Proof.
    intros H. pose proof H as H0. apply iter_inv in H.
    destruct H as (h&mp&Hf&Hm&Hh&Ef&Eu&Et&Eo&Es&Etau&En&_&_&_&Emf&H2).
    unfold second_half in H2. rewrite Hm in H2. injection H2 as H2. subst fu. cbn in *. subst.
    rewrite bmul_comp.
    assert (A : h_Acontact h = rcount (c_ranks c) (contact_set K s) /\ h_Acg h = rcount (c_ranks c) (cg_set K c s)).
    { apply first_half_cases in Hf. destruct Hf as [->|[hd [_ [_ Hx]]]]; [split; reflexivity|].
      unfold mix_half in Hx. destruct (match c_ext c with None => _ | Some _ => _ end); [|discriminate].
      injection Hx as <-. split; reflexivity. }
    destruct A as [A1 A2]. repeat split; auto.
  Qed.

  Definition final_label (b : bool) : label := if b then LConverged else LNotConverged.

  Lemma run_rows n evs r : run_trace K c n = (evs, Ok r) ->
    exists l' fu, let l := l' ++ [fu] in
      chain c (init_state K c) l /\ x_nit r = S (List.length l') /\
      logs evs = map quiet l' ++ [(final_label (x_success r), true, fu_rep fu)] /\
      statuses evs = map (fun fu => r_str (fu_rep fu)) l /\
      (forall i f, nth_error l i = Some f -> forall p, force_after evs r i p = s_f (fu_state f) p) /\
      (forall p, x_jac r p = - s_f (fu_state fu) p) /\
      x_offset r = s_off (fu_state fu) /\ x_maxpen r = r_maxpen (fu_rep fu) /\
      x_maxpres r = r_maxpres (fu_rep fu) /\ x_str r = s_str (fu_state fu) /\ x_success r = fu_conv fu /\
      x_tau r = s_tau (fu_state fu).
  Proof.
    intros H. unfold run_trace in H.
    destruct (loop_logs n n (init_state K c) None evs (Ok r) eq_refl H) as (l&Hch&Hlen&Hcf&Hst&[(l'&fu&->&A&Hend)|(fu&_&X&_)]);
      [|discriminate].
    exists l', fu. cbv zeta. split; [exact Hch|].
    assert (NI : s_nit (fu_state fu) = S (List.length l')).
    { pose proof (chain_nit c _ _ Hch) as N. rewrite app_length, map_app in N. cbn [map List.length] in N.
      rewrite Nat.add_1_r, seq_S in N. apply app_inj_tail in N. destruct N as [_ N]. rewrite N. reflexivity. }
    assert (XN : x_nit r = s_nit (fu_state fu)) by (destruct Hend as [(_&->&_)|(_&->&_)]; reflexivity).
    split; [congruence|].
    assert (XS : x_success r = fu_conv fu) by (destruct Hend as [(E&->&_)|(E&->&_)]; rewrite E; reflexivity).
    split. { rewrite XS. destruct Hend as [(E&_&L)|(E&_&L)]; rewrite E, L; reflexivity. }
    split; [exact Hst|].
    assert (XJ : forall p, x_jac r p = - s_f (fu_state fu) p) by (intros p; destruct Hend as [(E&->&_)|(E&->&_)]; reflexivity).
    split.
    { intros i f E p. unfold force_after. rewrite Hcf.
      unfold nonconv. rewrite filter_app. cbn [filter].
      assert (NC : filter (fun f => negb (fu_conv f)) l' = l') by (exact (nonconv_all l' A)). rewrite NC.
      destruct (Nat.lt_trichotomy i (List.length l')) as [I|[I|I]].
      - rewrite nth_error_app1 in E by exact I. rewrite map_app, app_nth1 by (rewrite map_length; exact I).
        rewrite nth_indep with (d' := s_f (fu_state fu)) by (rewrite map_length; exact I).
        rewrite (map_nth (fun f => s_f (fu_state f))). f_equal. f_equal. f_equal. apply nth_error_nth. exact E.
      - subst i. rewrite nth_error_app2, Nat.sub_diag in E by lia. injection E as <-.
        rewrite map_app, app_nth2, map_length, Nat.sub_diag by (rewrite map_length; lia).
        destruct (fu_conv fu); cbn [negb map nth]; [|reflexivity]. rewrite XJ. lra.
      - exfalso. assert (nth_error (l' ++ [fu]) i = None) by (apply nth_error_None; rewrite app_length; cbn; lia). congruence. }
    split; [exact XJ|].
    destruct Hend as [(E&->&_)|(E&->&_)]; cbn; rewrite ?E; repeat split; reflexivity.
  Qed.

  (** Counting on the grid and on the surface. *)
  Lemma filter_two {A} (a b : A -> bool) l : filter a (filter b l) = filter (fun x => b x && a x) l.
  Proof. induction l as [|x l IH]; [reflexivity|]. cbn [filter]. destruct (b x); cbn [filter andb]; destruct (a x); rewrite IH; reflexivity. Qed.
  Lemma rcount_count m (Q : P -> Prop) dec : (forall p, comp c p = false -> m p = false) ->
    (forall p, comp c p = true -> (m p = true <-> Q p)) ->
    rcount (c_ranks c) m = count c Q dec.
  Proof.
    intros H0 H1. rewrite rcount_length. unfold count, surface_list, grid. rewrite filter_two.
    f_equal. apply filter_ext. intros p.
    change (c_slice c p && negb (c_masked c p)) with (comp c p). specialize (H0 p). specialize (H1 p).
    destruct (comp c p); cbn [andb]; [|auto]. specialize (H1 eq_refl).
    destruct (dec p) as [q|q]; [apply H1; exact q|]. apply Bool.not_true_iff_false. rewrite H1. exact q.
  Qed.
  Lemma count_le Q dec : (count c Q dec <= List.length (surface_list c))%nat.
  Proof.
    unfold count. generalize (surface_list c). intros l.
    induction l as [|p l IH]; cbn [filter List.length]; [lia|]. destruct (dec p); cbn [List.length]; lia.
  Qed.
  Lemma surface_pts_length : surface_pts c = List.length (surface_list c).
  Proof. unfold surface_pts. apply rcount_length. Qed.

  Lemma init_start p : comp c p = true -> s_f (init_state K c) p = start_force c p.
  Proof.
    intros Hp. cbn. unfold pad. rewrite Hp. cbn. unfold start_force. destruct (c_f0 c); [reflexivity|].
    f_equal. apply functional_extensionality. intros q. fold (comp c q). cbv zeta.
    destruct (c_u0 c); cbn; destruct (comp c q); auto; unfold Rltb;
      destruct (Rlt_dec _ _); unfold Rmax; destruct (Rle_dec _ _); lra.
  Qed.
  Lemma before_ok n evs r : run_trace K c n = (evs, Ok r) ->
    exists l, chain c (init_state K c) l /\ List.length l = x_nit r /\
    forall i fu, nth_error l i = Some fu -> exists s,
      iter K c s = Ok fu /\ (forall p, comp c p = true -> s_f s p = force_before c evs r i p) /\
      (forall p, s_f (fu_state fu) p = force_after evs r i p) /\
      (hardness_nonneg c -> pad_inv c s) /\ s_nit s = i.
  Proof.
    intros H. destruct (run_rows n evs r H) as (l'&fu&Hch&Hn&_&_&Hf&_). exists (l' ++ [fu]). split; [exact Hch|].
    split. { rewrite app_length, Hn. cbn. lia. }
    intros i f E. destruct (chain_nth _ _ _ _ Hch E) as (s&I1&I2&I3). exists s. split; [exact I1|].
    split. { intros p Hp. destruct i as [|j]; cbn [force_before].
      - subst s. apply init_start. exact Hp.
      - destruct I3 as (fj&Ej&->). symmetry. apply Hf. exact Ej. }
    split. { intros p. symmetry. apply Hf. exact E. }
    split; [|exact I2]. intros Hh. destruct i as [|j].
    - subst s. apply pad_inv_init.
    - destruct I3 as (fj&Ej&->). eapply chain_pad; eauto. apply pad_inv_init.
  Qed.

  (** The same list as in [run_rows]. *)
  Lemma area_ok s evs r i : pad_inv c s -> (forall p, comp c p = true -> s_f s p = force_before c evs r i p) ->
    rcount (c_ranks c) (contact_set K s) = pressed c (force_before c evs r i).
  Proof.
    intros HI Hf. apply rcount_count.
    - intros p Hp. destruct (HI p Hp) as [E _]. unfold contact_set. rewrite E. cbn. apply Rltb_false. lra.
    - intros p Hp. unfold contact_set. cbn. rewrite (Hf p Hp), Rltb_true. tauto.
  Qed.
  Lemma cg_area_ok s evs r i : pad_inv c s -> (forall p, comp c p = true -> s_f s p = force_before c evs r i p) ->
    match c_hard c with
    | None => rcount (c_ranks c) (cg_set K c s) = pressed c (force_before c evs r i)
    | Some (HScalar H) => rcount (c_ranks c) (cg_set K c s) = yielding_not c H (force_before c evs r i)
    | Some (HArray _) => True
    end.
  Proof.
    intros HI Hf. unfold cg_set. destruct (c_hard c) as [[H|H]|]; [|exact Logic.I|exact (area_ok s evs r i HI Hf)].
    apply rcount_count.
    - intros p Hp. destruct (HI p Hp) as [E _]. rewrite E. cbn. rewrite (proj2 (Rltb_false 0 0)) by lra. reflexivity.
    - intros p Hp. cbn. rewrite (Hf p Hp), andb_true_iff, !Rltb_true. tauto.
  Qed.

  (** Plastic area. *)
  Lemma flow_ok s fu H : iter K c s = Ok fu -> c_hard c = Some (HScalar H) -> 0 < H -> pad_inv c s ->
    c_ext c = None -> s_str (fu_state fu) <> Sd -> forall f, (forall p, s_f (fu_state fu) p = f p) ->
    rcount (c_ranks c) (mask_flowing K c (fu_half fu)) = at_hardness c H f.
  Proof.
    intros I1 Hc Hp HI Ex St f Hf. pose proof (iter_report s fu I1) as R. cbv zeta in R.
    destruct R as (_&_&_&_&_&_&_&_&_&F1&F2).
    apply iter_inv in I1. destruct I1 as (h&mp&_&_&Eh&_&_&_&_&Es&_). rewrite Eh in *. clear Eh.
    apply rcount_count.
    - intros p Cp. destruct (pad_first c s h HI F1 p Cp) as [E _]. unfold mask_flowing. rewrite Hc, E.
      cbn [hval]. unfold leb. cbn [oltb oopp ROps]. apply negb_false_iff, Rltb_true. lra.
    - intros p Cp. rewrite <- Hf, F2.
      assert (NF : new_force K c h = clip_flow K c h (clip_tensile K h)).
      { unfold new_force, adjust_force. rewrite Ex. unfold new_str in Es.
        destruct (is_mix (h_str h)); [reflexivity|]. destruct (any_nc K c h); [|reflexivity].
        exfalso. apply St. exact Es. }
      rewrite NF. unfold clip_flow. rewrite Hc. cbn [hval mat ROps oopp].
      destruct (mask_flowing K c h p) eqn:M; [tauto|]. split; [discriminate|]. intros E. exfalso.
      unfold mask_flowing in M. rewrite Hc in M. cbn [hval] in M. unfold leb in M. cbn [oltb oopp ROps] in M.
      apply negb_false_iff in M. apply Rltb_true in M.
      destruct (clip_tensile_cases h p) as [[_ X]|[_ X]]; rewrite X in E; lra.
  Qed.

  (** Values of the converged iteration. *)
  Lemma conv_report s fu : iter K c s = Ok fu -> fu_conv fu = true ->
    let rep := fu_rep fu in
    r_maxpres rep < c_forcetol c /\ r_padpres rep < c_forcetol c /\
    match r_maxdu rep with Some x => x < c_pentol c | None => True end /\
    (r_str rep <> Mix -> sqrt (r_ms rep) < c_pentol c /\ r_maxpen rep < c_pentol c).
  Proof.
    intros I1 Hc. pose proof I1 as I2. apply iter_inv in I2.
    destruct I2 as (h&mp&_&Hm&_&_&_&_&_&_&_&_&_&_&_&_&H2).
    unfold second_half in H2. rewrite Hm in H2. injection H2 as <-. cbn [fu_conv fu_rep] in *. cbv zeta.
    cbn [r_maxpres r_padpres r_maxdu r_str r_ms r_maxpen].
    apply andb_true_iff in Hc. destruct Hc as [_ Ht].
    assert (MD : forall x y, oltb_inf K x y = true -> match x with Some v => v < y | None => True end).
    { intros [x|] y X; [|exact Logic.I]. cbn in X. apply Rltb_true in X. exact X. }
    unfold new_str, new_G in *. destruct (is_mix (h_str h)).
    - rewrite !andb_true_iff in Ht. destruct Ht as [[T1 T2] T3]. cbn [oltb ROps] in T2, T3.
      apply Rltb_true in T2. apply Rltb_true in T3. split; [exact T2|]. split; [exact T3|].
      split; [exact (MD _ _ T1)|]. intros X. contradiction X. reflexivity.
    - rewrite !andb_true_iff in Ht. destruct Ht as [[[[[T0 T1] T2] T3] T4] T5]. cbn [oltb ROps] in T0, T1, T2, T4, T5.
      apply Rltb_true in T0, T1, T2, T4, T5. split; [exact T4|]. split; [exact T5|].
      split; [exact (MD _ _ T3)|]. intros _. split; [|exact T2].
      cbn [omul o0 ROps] in *. match type of T1 with ?x < _ => destruct (Rle_dec 0 x) as [P0|P0]; [|rewrite sqrt_neg_0 by lra; exact T0] end.
      rewrite <- (sqrt_square (c_pentol c)) by lra. apply sqrt_lt_1; [exact P0| |exact T1]. apply Rmult_le_pos; lra.
  Qed.
End Logs.

(** ** Calls *)
Section Calls.
  Context {P : Type}.
  Variable c : @cfg R P.
  Variable verbose : bool.
  Notation K := (ROps P).

  Definition call_of (x : label * bool * @report R) : call :=
    mkCall (headers c verbose (snd x)) (values c verbose (fst (fst x)) (snd x)) (snd (fst x)).
  Lemma requests_calls evs : flat_map (log_request c verbose) evs = map (fun x => Status (call_of x)) (logs evs).
  Proof. induction evs as [|[l b r|it f r] evs IH]; [reflexivity| |exact IH]. cbn. f_equal. exact IH. Qed.
  Lemma status_calls_map l : status_calls (map (fun x => Status (call_of x)) l) = map call_of l.
  Proof. induction l as [|x l IH]; [reflexivity|]. cbn. f_equal. exact IH. Qed.
  Lemma solver_calls n pt evs : status_calls (solver_requests c verbose n pt evs) = map call_of (logs evs).
  Proof. unfold solver_requests. rewrite requests_calls. cbn. apply status_calls_map. Qed.

  Lemma call_ok x : well_formed (call_of x).
  Proof.
    unfold well_formed, call_of, headers, values. cbn [c_hdr c_vals]. split; [|discriminate].
    rewrite !app_length. destruct (hardness_true c), verbose; reflexivity.
  Qed.
  Lemma requests_ok n pt evs : Forall acceptable (solver_requests c verbose n pt evs).
  Proof.
    unfold solver_requests. constructor; [exact Logic.I|]. constructor; [exact Logic.I|]. rewrite requests_calls.
    apply Forall_forall. intros q Hq. apply in_map_iff in Hq. destruct Hq as (x&<-&_). apply call_ok.
  Qed.

  (** ** Columns *)
  Lemma under_here n h v vs : under n (n :: h) (v :: vs) = Some v.
  Proof. cbn [under]. unfold text_eqb. destruct (list_eq_dec ascii_dec n n); [reflexivity|contradiction]. Qed.
  Lemma under_next n m h v vs : text_eqb m n = false -> under n (m :: h) (v :: vs) = under n h vs.
  Proof. intros E. cbn [under]. rewrite E. reflexivity. Qed.
  Ltac find_column := unfold column, call_of, headers, values; cbn [c_hdr c_vals map app fst snd];
    repeat rewrite under_next by reflexivity; apply under_here.

  Lemma col_status x : column "status" (call_of x) = Some (Scal (SStr (label_word (fst (fst x))))).
  Proof. find_column. Qed.
  Lemma col_it x : column "it" (call_of x) = Some (Scal (SInt (Z.of_nat (r_it (snd x))))).
  Proof. find_column. Qed.
  Lemma col_area x : column "area" (call_of x) = Some (int_real (r_Acontact (snd x))).
  Proof. find_column. Qed.
  Lemma col_frac x : column "frac. area" (call_of x) = Some (real (INR (r_Acontact (snd x)) / INR (surface_pts c))).
  Proof. find_column. Qed.
  Lemma col_cg x : column "cg area" (call_of x) = Some (int_real (r_Acg (snd x))).
  Proof. find_column. Qed.
  Lemma col_total x : column "total force" (call_of x) = Some (real (r_total (snd x))).
  Proof. find_column. Qed.
  Lemma col_offset x : column "offset" (call_of x) = Some (real (r_off (snd x))).
  Proof. find_column. Qed.
  Lemma col_plast x : hardness_true c = true -> column "plast. area" (call_of x) = Some (int_real (r_Afl (snd x))).
  Proof. intros E. unfold column, call_of, headers, values. rewrite E. find_column. Qed.
  Ltac find_verbose := intros E; unfold column, call_of, headers, values; rewrite E; destruct (hardness_true c); find_column.
  Lemma col_rms x : verbose = true -> column "rms pen." (call_of x) = Some (real (sqrt (r_ms (snd x)))).
  Proof. find_verbose. Qed.
  Lemma col_pen x : verbose = true -> column "max. pen." (call_of x) = Some (real (r_maxpen (snd x))).
  Proof. find_verbose. Qed.
  Lemma col_force x : verbose = true -> column "max. force" (call_of x) = Some (real (r_maxpres (snd x))).
  Proof. find_verbose. Qed.
  Lemma col_pad x : verbose = true -> column "max. pad force" (call_of x) = Some (real (r_padpres (snd x))).
  Proof. find_verbose. Qed.
  Lemma col_du x : verbose = true -> column "max. du" (call_of x)
    = Some (match r_maxdu (snd x) with Some y => real y | None => Scal (SStr (tx "-inf")) end).
  Proof. find_verbose. Qed.
  Lemma col_tau x : verbose = true -> is_mix (r_str (snd x)) = false -> column "tau" (call_of x) = Some (real (r_tau (snd x))).
  Proof. intros E M. unfold column, call_of, headers, values. rewrite E, M. destruct (hardness_true c); find_column. Qed.
  Lemma col_mixfac x : verbose = true -> is_mix (r_str (snd x)) = true -> column "mixfac" (call_of x) = Some (real (r_mixfac (snd x))).
  Proof. intros E M. unfold column, call_of, headers, values. rewrite E, M. destruct (hardness_true c); find_column. Qed.

  (** ** Printed calls *)
  Lemma printed_app oe : forall a k b, printed oe k (map (fun x => Status (call_of x)) a ++ b)
    = printed oe k (map (fun x => Status (call_of x)) a) ++ printed oe (k + List.length a) b.
  Proof.
    induction a as [|x a IH]; intros k b; cbn [map app printed List.length]; [rewrite Nat.add_0_r; reflexivity|].
    rewrite IH. replace (k + S (List.length a))%nat with (S k + List.length a)%nat by lia.
    destruct (due oe k (call_of x)); reflexivity.
  Qed.
  Lemma printed_quiet oe : (1 <= oe)%Z -> forall (l : list (@full R P)) k,
    map (fun fu => r_it (fu_rep fu)) l = seq (S k) (List.length l) ->
    map (column "it") (printed oe k (map (fun x => Status (call_of x)) (map quiet l)))
    = map (fun i => Some (Scal (SInt (Z.of_nat i)))) (filter (fun i => (Z.of_nat i mod oe =? 0)%Z) (seq (S k) (List.length l))).
  Proof.
    intros O. induction l as [|fu l IH]; intros k E; [reflexivity|].
    cbn [map List.length seq] in E. injection E as E1 E2.
    cbn [map printed List.length seq filter]. specialize (IH (S k) E2).
    assert (D : due oe k (call_of (quiet fu)) = (Z.of_nat (S k) mod oe =? 0)%Z).
    { unfold due. cbn [call_of quiet c_force fst snd orb]. destruct (Z.leb_spec oe 1); [|reflexivity].
      assert (oe = 1)%Z by lia. subst oe. rewrite Z.mod_1_r. reflexivity. }
    rewrite D. destruct (Z.of_nat (S k) mod oe =? 0)%Z; cbn [map]; rewrite IH; [|reflexivity].
    rewrite col_it. cbn [quiet snd]. rewrite E1. reflexivity.
  Qed.
End Calls.

(** ** The first line *)
Lemma lstrip_keeps : forall a x b, in_strip x = false -> exists a', lstrip (a ++ x :: b) = a' ++ x :: b.
Proof.
  induction a as [|y a IH]; intros x b H; cbn [app lstrip].
  - rewrite H. exists []. reflexivity.
  - destruct (in_strip y); [apply IH; exact H|]. exists (y :: a). reflexivity.
Qed.
Lemma strip_keeps : forall a x b, in_strip x = false -> exists b', rev (lstrip (rev (a ++ x :: b))) = a ++ x :: b'.
Proof.
  intros a x b H. rewrite rev_app_distr. cbn [rev]. rewrite <- app_assoc. cbn [app].
  destruct (lstrip_keeps (rev b) x (rev a) H) as [b' E]. rewrite E. exists (rev b').
  rewrite rev_app_distr. cbn [rev]. rewrite rev_involutive, <- app_assoc. reflexivity.
Qed.
Lemma first_line_words t : exists w1 rest,
  split_at is_space (strip (pr_line solver_name (tx "maxiter = " ++ t))) [] = w1 :: tx "maxiter" :: rest.
Proof.
  unfold strip, pr_line.
  destruct (strip_keeps (tx "{constrained_conjugate_gradients}: maxiter ") "="%char (" "%char :: t) eq_refl) as [b' E].
  replace (lstrip (tx "# {" ++ solver_name ++ tx "}: " ++ tx "maxiter = " ++ t))
    with (tx "{constrained_conjugate_gradients}: maxiter " ++ "="%char :: " "%char :: t) by reflexivity.
  rewrite E. eexists _, _. reflexivity.
Qed.
