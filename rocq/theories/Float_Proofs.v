(** * The solver in floating point arithmetic: proofs *)
From Coq Require Import List Bool Arith Lia Permutation.
From Verif Require Import Float_Model Float_Spec.
Import ListNotations.

Section Proofs.
  Context {F P : Type}.
  Variable K : Arith F.
  Variable fin : F -> Prop.
  Hypothesis L : laws K fin.
  Local Notation nan := (is_nan K).

  Lemma nan_dec : forall x, nan x \/ ~ nan x.
  Proof. intro x. unfold is_nan. destruct (aeq K x x); [right; discriminate|left; reflexivity]. Qed.
  Lemma nan_nfin : forall x, nan x -> ~ fin x.
  Proof. intros x N Fi. exact (l_fin_nan K fin L x Fi N). Qed.
  Lemma lt_nan_l : forall x y, nan x -> alt K x y = false.
  Proof. intros x y N. destruct (alt K x y) eqn:E; [|reflexivity]. apply (l_lt_nan K fin L) in E. tauto. Qed.
  Lemma le_nan_l : forall x y, nan x -> ale K x y = false.
  Proof. intros x y N. destruct (ale K x y) eqn:E; [|reflexivity]. apply (l_le_nan K fin L) in E. tauto. Qed.
  Lemma le_nan_r : forall x y, nan y -> ale K x y = false.
  Proof. intros x y N. destruct (ale K x y) eqn:E; [|reflexivity]. apply (l_le_nan K fin L) in E. tauto. Qed.
  Lemma eq_nan_l : forall x y, nan x -> aeq K x y = false.
  Proof. intros x y N. destruct (aeq K x y) eqn:E; [|reflexivity]. apply (l_eq_nan K fin L) in E. tauto. Qed.
  Lemma anan_true : forall x, nan x -> anan K x = true.
  Proof. intros x N. unfold anan, is_nan in *. rewrite N. reflexivity. Qed.

  (** ** Reductions *)
  Lemma summed_nan : forall l a, summed K l a -> forall x, In x l -> nan x -> nan a.
  Proof.
    intros l a S. induction S as [|x|l1 l2 a b S1 IH1 S2 IH2|l l' a Pm S IH]; intros z I N.
    - destruct I.
    - destruct I as [->|[]]. exact N.
    - apply (l_add_nan K fin L). apply in_app_or in I. destruct I as [I|I]; [left; eapply IH1|right; eapply IH2]; eassumption.
    - eapply IH; [|exact N]. eapply Permutation_in; [|exact I]. apply Permutation_sym, Pm.
  Qed.
  Lemma summed_fin : forall l a, summed K l a -> fin a -> forall x, In x l -> fin x.
  Proof.
    intros l a S. induction S as [|x|l1 l2 a b S1 IH1 S2 IH2|l l' a Pm S IH]; intros Fi z I.
    - destruct I.
    - destruct I as [->|[]]. exact Fi.
    - apply (l_add_fin K fin L) in Fi. apply in_app_or in I. destruct I as [I|I]; [apply IH1|apply IH2]; tauto.
    - apply IH; [exact Fi|]. eapply Permutation_in; [|exact I]. apply Permutation_sym, Pm.
  Qed.
  Lemma summed_sign : forall l a, summed K l a -> (forall x, In x l -> not_pos K x) -> not_pos K a.
  Proof.
    intros l a S. induction S as [|x|l1 l2 a b S1 IH1 S2 IH2|l l' a Pm S IH]; intros H.
    - apply (l_lt_irrefl K fin L).
    - apply H. left. reflexivity.
    - apply (l_add_sign K fin L); [apply IH1|apply IH2]; intros z I; apply H, in_or_app; auto.
    - apply IH. intros z I. apply H. eapply Permutation_in; eassumption.
  Qed.
  Lemma sum_nan : forall l x, In x l -> nan x -> nan (asum K l).
  Proof. intros l. apply summed_nan, (l_sum K fin L). Qed.
  Lemma sum_nfin : forall l x, In x l -> ~ fin x -> ~ fin (asum K l).
  Proof. intros l x I N Fi. apply N. exact (summed_fin l _ (l_sum K fin L l) Fi x I). Qed.
  Lemma max_lt : forall l y x, alt K (amax K l) y = true -> In x l -> alt K x y = true.
  Proof.
    intros l y x H I. apply (l_le_lt K fin L) with (amax K l); [|exact H].
    apply (l_max_above K fin L); [exact I|]. apply (l_lt_nan K fin L) in H. tauto.
  Qed.
  (** [max(0.0, amax l) < y] when nothing is nan. *)
  Lemma pymax_lt : forall a b y, alt K (pymax K a b) y = true -> ~ nan a -> ~ nan b ->
    alt K a y = true /\ alt K b y = true.
  Proof.
    intros a b y H A B. unfold pymax in H. destruct (alt K a b) eqn:E.
    - split; [|exact H]. apply (l_le_lt K fin L) with b; [apply (l_lt_le K fin L); exact E|exact H].
    - split; [exact H|]. apply (l_le_lt K fin L) with a; [|exact H]. apply (l_total K fin L); assumption.
  Qed.

  Variable c : fcfg (F:=F) (P:=P).
  Local Notation comp := (fcomp c).

  Lemma in_vals : forall m phi p, In p (k_pts c) -> m p = true -> In (phi p) (vals c m phi).
  Proof. intros m phi p I M. unfold vals. apply in_map, filter_In. auto. Qed.
  Lemma vals_in : forall m phi x, In x (vals c m phi) -> exists p, In p (k_pts c) /\ m p = true /\ x = phi p.
  Proof.
    intros m phi x I. unfold vals in I. apply in_map_iff in I. destruct I as (p & <- & I).
    apply filter_In in I. exists p. tauto.
  Qed.
  Lemma count_pos : forall m p, In p (k_pts c) -> m p = true -> Nat.ltb 0 (count c m) = true.
  Proof.
    intros m p I M. apply Nat.ltb_lt. unfold count.
    assert (J : In p (filter m (k_pts c))) by (apply filter_In; auto).
    destruct (filter m (k_pts c)); [destruct J|cbn; lia].
  Qed.
  Lemma count_none : forall m, (forall p, In p (k_pts c) -> m p = false) -> count c m = 0.
  Proof.
    intros m H. unfold count. destruct (filter m (k_pts c)) as [|p l] eqn:E; [reflexivity|].
    assert (I : In p (filter m (k_pts c))) by (rewrite E; left; reflexivity).
    apply filter_In in I. destruct I as [I M]. rewrite (H p I) in M. discriminate.
  Qed.

  (** ** A conjugate gradient step with an infinite or undefined gap *)
  Section Step.
    Variable s : fstate (F:=F) (P:=P).
    Definition q_off : F :=
      match k_ext c with
      | None => z_off s
      | Some _ => if Nat.ltb 0 (count c (fcg K c s))
                  then adiv K (asum K (vals c (fun p => comp p && fcg K c s p) (fun p => asub K (z_u s p) (k_h c p))))
                              (anat K (count c (fcg K c s)))
                  else a0 K
      end.
    Definition q_g (p : P) : F := asub K (asub K (z_u s p) (k_h c p)) q_off.
    Definition q_G : F := asum K (vals c comp (fun p => amul K (btimes K (fcg K c s p) (q_g p)) (q_g p))).
    Definition q_w (p : P) : F :=
      if z_delta s && alt K (a0 K) (z_Gold s)
      then aadd K (q_g p) (amul K (amul K (a1 K) (adiv K q_G (z_Gold s))) (z_t s p)) else q_g p.
    Definition q_t (p : P) : F := if comp p then btimes K (fcg K c s p) (q_w p) else z_t s p.
    Definition q_x : F :=
      aopp K (asum K (vals c everywhere (fun p => amul K (btimes K (fcg K c s p) (k_disp c q_t p)) (q_t p)))).
    Definition q_curved : bool := Nat.ltb 0 (count c (fcg K c s)) && alt K (a0 K) q_x.
    Definition q_tau : F :=
      if q_curved
      then adiv K (asum K (vals c comp (fun p => amul K (btimes K (fcg K c s p) (q_g p)) (q_t p)))) q_x else a0 K.
    Definition q_f (p : P) : F := aadd K (z_f s p) (amul K (btimes K (fcg K c s p) q_tau) (q_t p)).
    Lemma cg_half_eq : fcg_half K c s =
      mkFhalf (fcg K c s) q_g q_f q_t
        (if Nat.ltb 0 (count c (fcg K c s)) && negb (alt K (a0 K) q_x) then a0 K else q_G)
        q_tau q_off (if fmix (z_str s) then FSd else z_str s) (k_mixfac c) (z_mixsteps s) (S (z_nfev s))
        (count c (fcg K c s)).
    Proof. reflexivity. Qed.

    Lemma bad_gap : forall p, In p (k_pts c) -> comp p = true -> ~ fin (q_g p) -> nan (q_f p).
    Proof.
      intros p I C B.
      assert (TP : ~ fin (q_w p)).
      { unfold q_w. destruct (z_delta s && alt K (a0 K) (z_Gold s)); [|exact B].
        intro Fi. apply (l_add_fin K fin L) in Fi. apply B, Fi. }
      assert (TE : q_t p = btimes K (fcg K c s p) (q_w p)) by (unfold q_t; rewrite C; reflexivity).
      apply (l_add_nan K fin L). right.
      destruct (fcg K c s p) eqn:CR; cbn [btimes] in *.
      - destruct (nan_dec (q_w p)) as [NW|NW].
        { apply (l_mul_nan K fin L). right. rewrite TE. exact NW. }
        assert (TF : ~ fin (q_t p)) by (rewrite TE; exact TP).
        unfold q_tau. destruct q_curved.
        + apply (l_mul_nan K fin L). left. apply (l_inf_ratio K fin L).
          * eapply sum_nfin; [apply (in_vals comp); eassumption|].
            intro Fi. cbv beta in Fi. apply (l_mul_fin K fin L) in Fi. tauto.
          * unfold q_x. rewrite (l_opp_fin K fin L).
            eapply sum_nfin; [apply (in_vals everywhere); [exact I|reflexivity]|].
            intro Fi. cbv beta in Fi. apply (l_mul_fin K fin L) in Fi. tauto.
        + apply (l_zero_times K fin L). exact TF.
      - apply (l_mul_nan K fin L). right. rewrite TE. apply (l_zero_times K fin L). exact TP.
    Qed.
    Lemma gap_parts : forall p, fin (q_g p) -> fin (z_u s p) /\ fin (k_h c p) /\ fin q_off.
    Proof.
      intros p H. unfold q_g in H. apply (l_sub_fin K fin L) in H. destruct H as [H1 H2].
      apply (l_sub_fin K fin L) in H1. tauto.
    Qed.
  End Step.

  (** An undefined force survives the rest of the iteration. *)
  Lemma nan_force : forall h p, In p (k_pts c) -> comp p = true ->
    nan (y_f h p) -> nan (fnew_force K c h p).
  Proof.
    intros h p I C N.
    assert (T : ftensile K h p = false) by (apply le_nan_r; exact N).
    assert (N1 : nan (fclip K h p)) by (unfold fclip; rewrite T; exact N).
    assert (N2 : nan (fadjust K c (fclip K h) p)).
    { unfold fadjust. destruct (k_ext c) as [Fx|]; [|exact N1].
      rewrite eq_nan_l.
      - apply (l_mul_nan K fin L). left. exact N1.
      - apply (l_opp_nan K fin L). apply sum_nan with (fclip K h p); [apply in_vals; assumption|exact N1]. }
    assert (N3 : nan (fclip_flow K c h (fadjust K c (fclip K h)) p)).
    { unfold fclip_flow. destruct (k_hard c) as [H|] eqn:E; [|exact N2].
      unfold fflow. rewrite E, le_nan_l by exact N. exact N2. }
    unfold fnew_force. destruct (fmix (y_str h)); [exact N3|]. destruct (fany_nc K c h); [|exact N3].
    rewrite C. apply (l_add_nan K fin L). left. exact N3.
  Qed.

  (** ** What a passed test means *)
  Local Notation pts_fin := (pts_fin fin c).
  Local Notation spreads := (spreads fin c).

  Lemma conv_parts : forall s h, w_conv (fsecond K c s h) = true ->
    alt K (w_maxdu (fsecond K c s h)) (k_pentol c) = true
    /\ alt K (fmax_pres K c h) (k_forcetol c) = true
    /\ alt K (fpad_pres K c h) (k_forcetol c) = true
    /\ (fmix (y_str h) = false ->
        alt K (w_rms (fsecond K c s h)) (k_pentol c) = true
        /\ alt K (w_maxpen (fsecond K c s h)) (k_pentol c) = true).
  Proof.
    intros s h H. unfold fsecond in *. cbv zeta in *. cbn [w_conv w_maxdu w_rms w_maxpen] in *.
    apply andb_prop in H. destruct H as [_ H].
    destruct (fmix (y_str h)).
    - apply andb_prop in H. destruct H as [H H3]. apply andb_prop in H. destruct H as [H1 H2].
      split; [exact H1|split; [exact H2|split; [exact H3|discriminate]]].
    - apply andb_prop in H. destruct H as [H0 H]. apply andb_prop in H0.
      apply andb_prop in H. destruct H as [H H3]. apply andb_prop in H. destruct H as [H1 H2].
      split; [exact H1|split; [exact H2|split; [exact H3|intros _; exact H0]]].
  Qed.

  Lemma conv_finite : forall s h, w_conv (fsecond K c s h) = true ->
    pts_fin (k_disp c (fnew_force K c h)) /\ pts_fin (z_u s).
  Proof.
    intros s h H. destruct (conv_parts s h H) as (D & _).
    assert (A : forall p, In p (k_pts c) -> fin (asub K (k_disp c (fnew_force K c h) p) (z_u s p))).
    { intros p I. apply (l_abs_small K fin L _ (k_pentol c)). apply max_lt with (1 := D).
      apply (in_vals everywhere (fun p => aabs K (asub K (k_disp c (fnew_force K c h) p) (z_u s p)))); [exact I|reflexivity]. }
    split; intros p I; destruct (l_sub_fin K fin L _ _ (A p I)); assumption.
  Qed.

  (** ** Runs *)
  Inductive reach : fstate (F:=F) (P:=P) -> Prop :=
  | reach_start : reach (fstart K c)
  | reach_next : forall s w, reach s -> fiter K c s = inl w -> reach (w_state w).

  Lemma loop_inv : forall fuel s last o, floop K c fuel s last = inl o -> reach s ->
    (forall w, last = Some w -> exists s0, reach s0 /\ fiter K c s0 = inl w) ->
    exists s0 w, reach s0 /\ fiter K c s0 = inl w /\ o = fresult K c (o_success o) w
      /\ (o_success o = true -> w_conv w = true).
  Proof.
    induction fuel as [|n IH]; intros s last o H Rs HL; cbn [floop] in H.
    - destruct last as [w|]; [|discriminate]. injection H as <-. destruct (HL w eq_refl) as (s0 & R0 & E).
      exists s0, w. cbn [fresult o_success]. repeat split; try assumption; discriminate.
    - destruct (fiter K c s) as [w|e] eqn:E; [|discriminate].
      destruct (w_conv w) eqn:Cv.
      + injection H as <-. exists s, w. cbn [fresult o_success]. auto.
      + destruct (anan K (z_Gold (w_state w)) || anan K (w_rms w)); [discriminate|].
        apply (IH _ _ _ H); [econstructor; eassumption|].
        intros w' Q. injection Q as <-. exists s. auto.
  Qed.

  Lemma run_inv : forall maxiter o, frun K c maxiter = inl o ->
    exists s h, reach s /\ ffirst K c s = inl h /\ o = fresult K c (o_success o) (fsecond K c s h)
      /\ (o_success o = true -> w_conv (fsecond K c s h) = true).
  Proof.
    intros m o H. destruct (loop_inv m _ None o H reach_start) as (s & w & Rs & E & O & Cv); [discriminate|].
    unfold fiter in E. destruct (ffirst K c s) as [h|] eqn:Fi; [|discriminate]. injection E as <-.
    exists s, h. auto.
  Qed.

  (** *** Points outside of the surface *)
  Definition zl (x : F) : Prop := aeq K x (a0 K) = true \/ nan x.
  Lemma zl_zero : zl (a0 K).
  Proof. left. apply (l_zero_eq K fin L). Qed.
  Lemma zl_add : forall x y, zl x -> zl y -> zl (aadd K x y).
  Proof.
    intros x y [X|X] [Y|Y]; [left; apply (l_zero_add K fin L); assumption|right; apply (l_add_nan K fin L); auto..].
  Qed.
  Lemma zl_sub : forall x y, zl x -> zl y -> zl (asub K x y).
  Proof.
    intros x y [X|X] [Y|Y]; [left; apply (l_zero_sub K fin L); assumption|right; apply (l_sub_nan K fin L); auto..].
  Qed.
  Lemma zl_mul : forall x y, zl x \/ zl y -> zl (amul K x y).
  Proof.
    intros x y [[X|X]|[X|X]]; try (right; apply (l_mul_nan K fin L); auto; fail);
      apply (l_zero_mul K fin L); auto.
  Qed.
  Lemma zl_lt : forall x, zl x -> alt K x (a0 K) = false.
  Proof.
    intros x [X|X]; [apply (l_zero_lt K fin L); [exact X|apply (l_zero_eq K fin L)]|apply lt_nan_l; exact X].
  Qed.

  Local Notation hard_pos := (hard_pos K c).

  Lemma pad_first : forall s h, hard_pos -> (forall p, comp p = false -> zl (z_f s p)) ->
    ffirst K c s = inl h -> forall p, comp p = false -> zl (y_f h p).
  Proof.
    intros s h HP Z E p Cp. assert (Zp := Z p Cp).
    assert (CG : fcg K c s p = false).
    { unfold fcg. destruct (k_hard c); rewrite (zl_lt _ Zp); reflexivity. }
    assert (CGH : zl (y_f (fcg_half K c s) p)).
    { unfold fcg_half. cbv zeta. cbn [y_f]. rewrite CG. cbn [btimes].
      apply zl_add; [exact Zp|]. apply zl_mul. left. apply zl_mul. left. apply zl_zero. }
    unfold ffirst in E. destruct (k_hard c) as [H|] eqn:Hd; [|injection E as <-; exact CGH].
    destruct (fdo_cg K c s); [injection E as <-; exact CGH|].
    unfold fmix_half in E. cbv zeta in E.
    destruct (match k_ext c with None => _ | Some _ => _ end) as [off|]; [|discriminate].
    injection E as <-. cbn [y_f]. rewrite Cp, CG. cbn [btimes].
    apply zl_sub; [apply zl_mul; right; exact Zp|apply zl_mul; left; apply zl_zero].
  Qed.

  Lemma pad_force : forall h, hard_pos -> forall p, comp p = false -> zl (y_f h p) -> zl (fnew_force K c h p).
  Proof.
    intros h HP p Cp Z.
    assert (Z1 : zl (fclip K h p)).
    { unfold fclip. destruct (ftensile K h p); [apply zl_zero|exact Z]. }
    assert (Z2 : zl (fadjust K c (fclip K h) p)).
    { unfold fadjust. destruct (k_ext c) as [Fx|]; [|exact Z1]. destruct (aeq K _ (a0 K)).
      - unfold fpad. rewrite Cp. apply zl_zero.
      - apply zl_mul. left. exact Z1. }
    assert (Z3 : zl (fclip_flow K c h (fadjust K c (fclip K h)) p)).
    { unfold fclip_flow. destruct (k_hard c) as [H|] eqn:E; [|exact Z2].
      unfold fflow. rewrite E. destruct Z as [Z|Z].
      - rewrite (l_zero_flow K fin L _ H Z (HP H E)). exact Z2.
      - rewrite le_nan_l by exact Z. exact Z2. }
    unfold fnew_force. destruct (fmix (y_str h)); [exact Z3|]. destruct (fany_nc K c h); [|exact Z3].
    rewrite Cp. exact Z3.
  Qed.

  Lemma reach_pad : hard_pos -> forall s, reach s -> forall p, comp p = false -> zl (z_f s p).
  Proof.
    intros HP s Rs. induction Rs as [|s w Rs IH E]; intros p Cp.
    - unfold fstart. cbv zeta. cbn [z_f]. unfold fpad. rewrite Cp. apply zl_zero.
    - unfold fiter in E. destruct (ffirst K c s) as [h|] eqn:Fi; [|discriminate]. injection E as <-.
      unfold fsecond. cbv zeta. cbn [w_state z_f]. apply pad_force; [exact HP|exact Cp|].
      exact (pad_first s h HP IH Fi p Cp).
  Qed.

  (** *** Signs *)
  Lemma clip_sign : forall (h : fhalf (F:=F) (P:=P)) p, not_pos K (fclip K h p).
  Proof.
    intros h p. unfold fclip, ftensile, not_pos. destruct (ale K (a0 K) (y_f h p)) eqn:E.
    - apply (l_lt_irrefl K fin L).
    - destruct (alt K (a0 K) (y_f h p)) eqn:E'; [|reflexivity]. apply (l_lt_le K fin L) in E'. congruence.
  Qed.
  Lemma force_sign : forall h p,
    (forall Fx, k_ext c = Some Fx -> not_neg K Fx) -> hard_pos -> fnew_str K c h <> FSd ->
    not_pos K (fnew_force K c h p).
  Proof.
    intros h p HF HP ST.
    assert (N2 : not_pos K (fadjust K c (fclip K h) p)).
    { unfold fadjust. destruct (k_ext c) as [Fx|] eqn:E; [|apply clip_sign].
      specialize (HF Fx eq_refl).
      destruct (aeq K (aopp K (asum K (vals c comp (fclip K h)))) (a0 K)) eqn:T.
      - destruct (fpad c p); [apply (l_lt_irrefl K fin L)|]. apply (l_share K fin L), (l_opp_neg K fin L), HF.
      - apply (l_mul_sign K fin L); [apply clip_sign|]. apply (l_div_sign K fin L); [exact HF| |exact T].
        apply (l_opp_pos K fin L). apply (summed_sign _ _ (l_sum K fin L _)).
        intros x I. apply vals_in in I. destruct I as (q & _ & _ & ->). apply clip_sign. }
    assert (N3 : not_pos K (fclip_flow K c h (fadjust K c (fclip K h)) p)).
    { unfold fclip_flow. destruct (k_hard c) as [H|] eqn:E; [|exact N2]. destruct (fflow K c h p); [|exact N2].
      apply (l_opp_neg K fin L). unfold not_neg. destruct (alt K H (a0 K)) eqn:E'; [|reflexivity].
      exfalso. pose proof (l_le_lt K fin L _ _ _ (l_lt_le K fin L _ _ (HP H E)) E') as Q.
      rewrite (l_lt_irrefl K fin L) in Q. discriminate. }
    unfold fnew_force, fnew_str in *. destruct (fmix (y_str h)); [exact N3|].
    destruct (fany_nc K c h); [contradiction|exact N3].
  Qed.

  Lemma force_hard : forall h p H, k_hard c = Some H -> k_ext c = None -> alt K (a0 K) H = true ->
    fnew_str K c h <> FSd -> alt K (fnew_force K c h p) (aopp K H) = false.
  Proof.
    intros h p H E X HP ST.
    assert (N3 : alt K (fclip_flow K c h (fadjust K c (fclip K h)) p) (aopp K H) = false).
    { unfold fclip_flow. rewrite E. destruct (fflow K c h p) eqn:Fl; [apply (l_lt_irrefl K fin L)|].
      unfold fadjust. rewrite X. unfold fclip. destruct (ftensile K h p).
      - destruct (alt K (a0 K) (aopp K H)) eqn:Q; [|reflexivity].
        apply (l_lt_le K fin L) in Q.
        rewrite (l_zero_flow K fin L (a0 K) H (l_zero_eq K fin L) HP) in Q. discriminate.
      - unfold fflow in Fl. rewrite E in Fl. destruct (alt K (y_f h p) (aopp K H)) eqn:Q; [|reflexivity].
        apply (l_lt_le K fin L) in Q. congruence. }
    unfold fnew_force, fnew_str in *. destruct (fmix (y_str h)); [exact N3|].
    destruct (fany_nc K c h); [contradiction|exact N3].
  Qed.

  (** *** Gaps *)
  Lemma cg_first : forall s h, ffirst K c s = inl h -> fmix (y_str h) = false -> h = fcg_half K c s.
  Proof.
    intros s h E M. unfold ffirst in E. destruct (k_hard c) as [H|]; [|injection E as <-; reflexivity].
    destruct (fdo_cg K c s); [injection E as <-; reflexivity|].
    unfold fmix_half in E. cbv zeta in E.
    destruct (match k_ext c with None => _ | Some _ => _ end); [|discriminate].
    injection E as <-. discriminate.
  Qed.
  Lemma conv_gap : spreads -> forall s h, ffirst K c s = inl h -> w_conv (fsecond K c s h) = true ->
    fmix (y_str h) = false -> forall p, In p (k_pts c) -> comp p = true -> fin (y_g h p).
  Proof.
    intros SP s h E Cv M p I Cp. pose proof (cg_first s h E M) as ->.
    destruct (l_fin_dec K fin L (y_g (fcg_half K c s) p)) as [B|B]; [exact B|exfalso].
    pose proof (nan_force (fcg_half K c s) p I Cp (bad_gap s p I Cp B)) as N.
    destruct (conv_finite s _ Cv) as [U _]. exact (nan_nfin _ N (SP _ U p I)).
  Qed.

  Lemma surf_comp : forall p, surface c p <-> In p (k_pts c) /\ comp p = true.
  Proof.
    intro p. unfold surface, fcomp. destruct (k_slice c p), (k_masked c p); cbn [andb negb]; intuition discriminate.
  Qed.
  Lemma matrix_spreads : forall mat, by_matrix K c mat -> spreads.
  Proof.
    intros mat BM f Fi p I.
    destruct (k_pts c) as [|q l] eqn:E; [destruct I|].
    assert (J : In q (k_pts c)) by (rewrite E; left; reflexivity).
    pose proof (summed_fin _ _ (BM f q J) (Fi q J) (amul K (mat q p) (f p))) as H.
    assert (H' : fin (amul K (mat q p) (f p))).
    { apply H. rewrite E. apply (in_map (fun z => amul K (mat q z) (f z)) (q :: l) p). exact I. }
    apply (l_mul_fin K fin L) in H'. tauto.
  Qed.
  Lemma matrix_spreads_nan : forall mat, by_matrix K c mat -> spreads_nan K c.
  Proof.
    intros mat BM f p q I J N.
    apply (summed_nan _ _ (BM f q J) (amul K (mat q p) (f p))).
    - apply (in_map (fun z => amul K (mat q z) (f z))). exact I.
    - apply (l_mul_nan K fin L). right. exact N.
  Qed.

  Lemma conv_pen : forall s h, w_conv (fsecond K c s h) = true -> fmix (y_str h) = false ->
    (forall p, surface c p -> fin (asub K (aadd K (k_h c p) (y_off h)) (k_disp c (fnew_force K c h) p))) ->
    forall p, surface c p -> y_c h p = true ->
    alt K (asub K (aadd K (k_h c p) (y_off h)) (k_disp c (fnew_force K c h) p)) (k_pentol c) = true.
  Proof.
    intros s h Cv M Fi p Sp A.
    destruct (conv_parts s h Cv) as (_ & _ & _ & Q). destruct (Q M) as [_ Q'].
    unfold fsecond in Q'. cbv zeta in Q'. cbn [w_maxpen] in Q'.
    apply pymax_lt in Q'.
    - destruct Q' as [_ Q']. apply surf_comp in Sp. destruct Sp as [I Cp].
      pose proof (max_lt _ _ _ Q' (in_vals comp _ p I Cp)) as Z. cbv beta in Z. rewrite A in Z. exact Z.
    - apply (l_fin_nan K fin L), (l_fin_zero K fin L).
    - apply (l_max_some K fin L). intros x I. apply vals_in in I. destruct I as (q & I & Cq & ->).
      assert (Sq : surface c q) by (apply surf_comp; auto). specialize (Fi q Sq).
      destruct (y_c h q); cbn [btimes].
      + apply (l_fin_nan K fin L), Fi.
      + apply (l_zero_fin K fin L), Fi.
  Qed.

  Lemma conv_du : forall s h, w_conv (fsecond K c s h) = true ->
    forall p, In p (k_pts c) ->
    alt K (aabs K (asub K (k_disp c (fnew_force K c h) p) (z_u s p))) (k_pentol c) = true.
  Proof.
    intros s h H p I. destruct (conv_parts s h H) as (D & _). apply max_lt with (1 := D).
    apply (in_vals everywhere (fun p => aabs K (asub K (k_disp c (fnew_force K c h) p) (z_u s p)))); [exact I|reflexivity].
  Qed.

  (** A force of zero means no overlap before the last step. *)
  Lemma free_gap : hard_pos -> k_ext c = None -> forall h, fnew_str K c h = FCg ->
    forall p, surface c p -> aeq K (fnew_force K c h p) (a0 K) = true -> alt K (y_g h p) (a0 K) = false.
  Proof.
    intros HP X h ST p Sp Z. apply surf_comp in Sp. destruct Sp as [I Cp].
    assert (T : ftensile K h p = true).
    { unfold fnew_force, fnew_str in *. destruct (fmix (y_str h)); [discriminate|].
      destruct (fany_nc K c h) eqn:NC; [discriminate|]. unfold fclip_flow, fadjust in Z. rewrite X in Z.
      destruct (ftensile K h p) eqn:T; [reflexivity|exfalso].
      assert (Z1 : aeq K (y_f h p) (a0 K) = true).
      { destruct (k_hard c) as [H|] eqn:E.
        - destruct (fflow K c h p) eqn:Fl; [exfalso|unfold fclip in Z; rewrite T in Z; exact Z].
          pose proof (l_zero_flow K fin L _ H Z (HP H E)) as Q.
          destruct (l_eq_nan K fin L _ _ Z) as [N _].
          rewrite (l_total K fin L _ _ N N (l_lt_irrefl K fin L _)) in Q. discriminate.
        - unfold fclip in Z. rewrite T in Z. exact Z. }
      unfold ftensile in T. rewrite (l_zero_le K fin L _ Z1) in T. discriminate. }
    destruct (alt K (y_g h p) (a0 K)) eqn:G; [exfalso|reflexivity].
    unfold fnew_str in ST. destruct (fmix (y_str h)); [discriminate|].
    replace (fany_nc K c h) with true in ST; [discriminate|]. symmetry.
    unfold fany_nc. apply (count_pos _ p I). unfold fnc. rewrite Cp, T, G. reflexivity.
  Qed.

  (** *** Offset, counters, exceptions *)
  Lemma first_off : forall s h, k_ext c = None -> ffirst K c s = inl h -> y_off h = z_off s.
  Proof.
    intros s h X E.
    assert (G : y_off (fcg_half K c s) = z_off s) by (rewrite cg_half_eq; cbn [y_off]; unfold q_off; rewrite X; reflexivity).
    unfold ffirst in E. destruct (k_hard c) as [H|]; [|injection E as <-; exact G].
    destruct (fdo_cg K c s); [injection E as <-; exact G|].
    unfold fmix_half in E. cbv zeta in E. rewrite X in E. injection E as <-. reflexivity.
  Qed.
  Lemma reach_off : k_ext c = None -> forall s, reach s -> z_off s = k_offset c.
  Proof.
    intros X s Rs. induction Rs as [|s w Rs IH E]; [reflexivity|].
    unfold fiter in E. destruct (ffirst K c s) as [h|] eqn:Fi; [|discriminate]. injection E as <-.
    unfold fsecond. cbv zeta. cbn [w_state z_off]. rewrite (first_off s h X Fi). exact IH.
  Qed.
  Lemma first_nfev : forall s h, ffirst K c s = inl h ->
    z_nfev s <= y_nfev h <= S (z_nfev s) /\ (k_hard c = None -> y_nfev h = S (z_nfev s)).
  Proof.
    intros s h E.
    assert (G : y_nfev (fcg_half K c s) = S (z_nfev s)) by reflexivity.
    unfold ffirst in E. destruct (k_hard c) as [H|]; [|injection E as <-; rewrite G; lia].
    destruct (fdo_cg K c s); [injection E as <-; rewrite G; split; [lia|discriminate]|].
    unfold fmix_half in E. cbv zeta in E.
    destruct (match k_ext c with None => _ | Some _ => _ end); [|discriminate].
    injection E as <-. cbn [y_nfev]. split; [lia|discriminate].
  Qed.
  (** One more iteration after a run that has not converged. *)
  Lemma loop_more : forall fuel s last o, (forall w, last = Some w -> w_state w = s) ->
    floop K c fuel s last = inl o -> o_success o = false ->
    exists w, o = fresult K c false w /\ floop K c (S fuel) s last = floop K c 1 (w_state w) (Some w).
  Proof.
    induction fuel as [|n IH]; intros s last o HL H Su.
    - cbn [floop] in H. destruct last as [w|]; [|discriminate]. injection H as <-. exists w.
      rewrite (HL w eq_refl). split; reflexivity.
    - cbn [floop] in H. destruct (fiter K c s) as [w|e] eqn:E; [|discriminate].
      destruct (w_conv w) eqn:Cv; [injection H as <-; discriminate|].
      destruct (anan K (z_Gold (w_state w)) || anan K (w_rms w)) eqn:N; [discriminate|].
      destruct (IH (w_state w) (Some w) o) as (w' & Q1 & Q2); [|exact H|exact Su|].
      { intros w' Q. injection Q as <-. reflexivity. }
      exists w'. split; [exact Q1|]. rewrite <- Q2.
      change (floop K c (S (S n)) s last) with
        (match fiter K c s with inr e => inr e | inl w0 =>
           if w_conv w0 then inl (fresult K c true w0)
           else if anan K (z_Gold (w_state w0)) || anan K (w_rms w0) then inr NanEncountered
           else floop K c (S n) (w_state w0) (Some w0) end).
      rewrite E, Cv, N. reflexivity.
  Qed.
  Lemma loop_one : forall s last o, floop K c 1 s last = inl o ->
    exists h, ffirst K c s = inl h /\ o = fresult K c (o_success o) (fsecond K c s h).
  Proof.
    intros s last o H. cbn [floop] in H. unfold fiter in H.
    destruct (ffirst K c s) as [h|e]; [|discriminate]. exists h. split; [reflexivity|].
    destruct (w_conv _); [injection H as <-; reflexivity|].
    destruct (anan K _ || anan K _); [discriminate|]. injection H as <-. reflexivity.
  Qed.
  Lemma active_cg : forall s b h, ffirst K c s = inl h -> o_str (fresult K c b (fsecond K c s h)) <> FMix ->
    o_active (fresult K c b (fsecond K c s h)) = fcg K c s.
  Proof.
    intros s b h E ST. cbn [fresult fsecond o_str w_state z_str] in ST.
    assert (M : fmix (y_str h) = false).
    { unfold fnew_str in ST. destruct (fmix (y_str h)); [congruence|reflexivity]. }
    pose proof (cg_first s h E M) as ->.
    unfold fresult. cbv zeta. cbn [o_active fsecond w_state z_str w_half].
    assert (Q : fmix (fnew_str K c (fcg_half K c s)) = false).
    { unfold fnew_str. rewrite M. destruct (fany_nc _ _ _); reflexivity. }
    rewrite Q, andb_false_r. reflexivity.
  Qed.

  Lemma loop_count : forall fuel s last o, floop K c fuel s last = inl o ->
    (forall w, last = Some w -> w_state w = s) ->
    z_nit s <= o_nit o <= z_nit s + fuel /\ (last = None -> z_nit s < o_nit o)
    /\ (o_success o = false -> o_nit o = z_nit s + fuel)
    /\ z_nfev s + (o_nit o - z_nit s) <= o_nfev o <= z_nfev s + 2 * (o_nit o - z_nit s)
    /\ (k_hard c = None -> o_nfev o = z_nfev s + 2 * (o_nit o - z_nit s)).
  Proof.
    induction fuel as [|n IH]; intros s last o H HL; cbn [floop] in H.
    - destruct last as [w|]; [|discriminate]. injection H as <-.
      specialize (HL w eq_refl). subst s. unfold fresult. cbv zeta. cbn [o_success o_nit o_nfev].
      split; [lia|]. split; [discriminate|]. split; [intros _; lia|]. split; [lia|intros _; lia].
    - unfold fiter in H. destruct (ffirst K c s) as [h|e] eqn:E; [|discriminate].
      pose proof (first_nfev s h E) as [N1 N2].
      assert (W1 : z_nit (w_state (fsecond K c s h)) = S (z_nit s)) by reflexivity.
      assert (W2 : z_nfev (w_state (fsecond K c s h)) = S (y_nfev h)) by reflexivity.
      destruct (w_conv (fsecond K c s h)).
      + injection H as <-. cbn [fresult o_success o_nit o_nfev]. rewrite W1, W2.
        split; [lia|]. split; [lia|]. split; [discriminate|]. split; [lia|intro Q; rewrite (N2 Q); lia].
      + destruct (anan K _ || anan K _); [discriminate|].
        apply IH in H; [|intros w Q; injection Q as <-; reflexivity].
        rewrite W1, W2 in H. destruct H as (A1 & A2 & A3 & A4 & A5).
        split; [lia|]. split; [lia|]. split; [intro Q; rewrite (A3 Q); lia|].
        split; [lia|intro Q; rewrite (A5 Q), (N2 Q); lia].
  Qed.

  (** *** Undefined numbers in an elastic calculation *)
  Local Notation spreads_nan := (spreads_nan K c).
  Definition nan_disp (s : fstate (F:=F) (P:=P)) : Prop :=
    forall p, In p (k_pts c) -> comp p = true -> nan (z_u s p).

  Hypothesis EL : k_hard c = None.
  Hypothesis SN : spreads_nan.

  Lemma el_loop : forall n s last,
    floop K c (S n) s last =
    let w := fsecond K c s (fcg_half K c s) in
    if w_conv w then inl (fresult K c true w)
    else if anan K (z_Gold (w_state w)) || anan K (w_rms w) then inr NanEncountered
    else floop K c n (w_state w) (Some w).
  Proof. intros n s last. cbn [floop]. unfold fiter, ffirst. rewrite EL. reflexivity. Qed.

  Lemma el_exn : forall n s last e, floop K c n s last = inr e -> e = NanEncountered \/ (n = O /\ last = None /\ e = Unbound).
  Proof.
    clear SN. induction n as [|n IH]; intros s last e H.
    - cbn [floop] in H. destruct last; [discriminate|]. injection H as <-. auto.
    - rewrite el_loop in H. cbv zeta in H. destruct (w_conv _); [discriminate|].
      destruct (anan K _ || anan K _); [injection H as <-; auto|].
      apply IH in H. destruct H as [H|(_ & Q & _)]; [auto|discriminate].
  Qed.

  Lemma el_bad : forall s p, In p (k_pts c) -> comp p = true -> ~ fin (q_g s p) ->
    w_conv (fsecond K c s (fcg_half K c s)) = false
    /\ nan (z_f (w_state (fsecond K c s (fcg_half K c s))) p)
    /\ nan_disp (w_state (fsecond K c s (fcg_half K c s))).
  Proof.
    intros s p I C B.
    pose proof (nan_force (fcg_half K c s) p I C (bad_gap s p I C B)) as N.
    split; [|split; [exact N|intros q J _; apply (SN _ p q I J N)]].
    destruct (w_conv _) eqn:E; [exfalso|reflexivity].
    destruct (conv_finite _ _ E) as [U _]. apply (nan_nfin _ (SN _ p p I I N)). apply U, I.
  Qed.
  Lemma nan_gap : forall s p, nan (z_u s p) -> ~ fin (q_g s p).
  Proof. intros s p N Fi. apply gap_parts in Fi. exact (nan_nfin _ N (proj1 Fi)). Qed.

  Lemma el_hard : hard_pos.
  Proof. intros H E. congruence. Qed.

  Lemma el_last : forall s p, In p (k_pts c) -> comp p = true -> nan (z_u s p) ->
    (forall p, In p (k_pts c) -> comp p = true -> nan (z_f s p)) ->
    (forall p, comp p = false -> zl (z_f s p)) ->
    forall n last, floop K c (S n) s last = inr NanEncountered.
  Proof.
    intros s p I C N NF Z n last. rewrite el_loop. cbv zeta.
    destruct (el_bad s p I C (nan_gap s p N)) as [Cv _]. rewrite Cv.
    assert (CR : forall q, In q (k_pts c) -> fcg K c s q = false).
    { intros q J. unfold fcg. rewrite EL. destruct (comp q) eqn:Cq.
      - apply lt_nan_l. apply NF; assumption.
      - apply zl_lt, Z, Cq. }
    assert (G : nan (z_Gold (w_state (fsecond K c s (fcg_half K c s))))).
    { unfold fsecond. cbv zeta. cbn [w_state z_Gold]. unfold fnew_G.
      assert (M : fmix (y_str (fcg_half K c s)) = false).
      { rewrite cg_half_eq. cbn [y_str]. destruct (z_str s); reflexivity. }
      rewrite M. rewrite cg_half_eq. cbn [y_G].
      rewrite (count_none _ CR). cbn [Nat.ltb Nat.leb andb].
      eapply sum_nan; [apply (in_vals comp); eassumption|]. cbv beta.
      apply (l_mul_nan K fin L). right. unfold q_g. apply (l_sub_nan K fin L). left.
      apply (l_sub_nan K fin L). left. exact N. }
    rewrite (anan_true _ G). reflexivity.
  Qed.

  (** Once all displacements are undefined, at most two more iterations are
      made. *)
  Lemma el_doomed : forall s p, reach s -> In p (k_pts c) -> comp p = true -> nan_disp s ->
    forall n last, floop K c (S (S n)) s last = inr NanEncountered.
  Proof.
    intros s p Rs I C N n last. rewrite el_loop. cbv zeta.
    destruct (el_bad s p I C (nan_gap s p (N p I C))) as (Cv & _ & D). rewrite Cv.
    destruct (anan K _ || anan K _); [reflexivity|].
    apply (el_last _ p I C (D p I C)).
    - intros q J Cq. exact (proj1 (proj2 (el_bad s q J Cq (nan_gap s q (N q J Cq))))).
    - apply reach_pad; [exact el_hard|]. econstructor; [exact Rs|]. unfold fiter, ffirst. rewrite EL. reflexivity.
  Qed.

  Lemma el_nan : forall p, In p (k_pts c) -> comp p = true ->
    ~ fin (q_g (fstart K c) p) -> forall n, frun K c (S (S (S n))) = inr NanEncountered.
  Proof.
    intros p I C B n. unfold frun. rewrite el_loop. cbv zeta.
    destruct (el_bad _ p I C B) as (Cv & _ & D). rewrite Cv.
    destruct (anan K _ || anan K _); [reflexivity|].
    apply (el_doomed _ p); [|exact I|exact C|exact D].
    econstructor; [apply reach_start|]. unfold fiter, ffirst. rewrite EL. reflexivity.
  Qed.
End Proofs.
