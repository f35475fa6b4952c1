(** The solver of the examples against the solver of the library. *)
From Coq Require Import Reals Lra List Bool Arith Lia FunctionalExtensionality.
From Verif Require Import Py CCG_Model CCG_Real CCG_Spec CCG_Proofs Simple_Model.
Import ListNotations.
Local Open Scope R_scope.

(** The call of the library's solver with the same substrate, heights, load,
    start and tolerances on one process.  The remaining arguments, which the
    example does not have, are free: [th] thermotol, [mf], [md], [mm] the mixing
    parameters, [bs] the bisection. *)
Definition library_call {P} (e : scall P) (th mf md : R) (mm : nat) (bs : (R -> R) -> R -> R -> option R) : @cfg R P :=
  mkCfg [e_pts e] (e_comp e) (fun _ => false) (e_h e) (e_disp e) (e_force e) None (e_ext e)
    (match e_offset e with Some x => x | None => 0 end) (e_u0 e) None (e_pentol e) (e_forcetol e) th mf md mm (e_n e) bs.

Section Agree.
  Context {P : Type}.
  Local Notation K := (ROps P).
  Variable e : scall P.
  Variables (th mf md : R) (mm : nat) (bs : (R -> R) -> R -> R -> option R).
  Local Notation c := (library_call e th mf md mm bs).

  Definition view_str (s : status) : sstatus := match s with Cg => SCg | Sd => SSd | _ => SReset end.
  Definition view (s : @state R P) : @sstate P :=
    mkSstate (s_f s) (s_u s) (s_t s) (s_delta s) (view_str (s_str s)) (s_Gold s) (s_off s) (s_nit s) (s_nfev s).

  Lemma comp_c p : comp c p = e_comp e p.
  Proof. unfold comp. cbn [c_slice c_masked library_call]. apply andb_true_r. Qed.
  Lemma pad_c p : pad c p = padding e p.
  Proof. unfold pad, padding. now rewrite comp_c. Qed.
  Lemma ltb_R a b : ltb a b = Rltb a b. Proof. reflexivity. Qed.
  Lemma eqb0_R a : eqb0 a = Reqb a 0. Proof. reflexivity. Qed.
  Lemma times_R b x : times b x = bmul K b x. Proof. reflexivity. Qed.

  Lemma total_of_R m phi : total_of e m phi = rsum K [e_pts e] (fun p => bmul K (m p) (phi p)).
  Proof.
    rewrite rsum_lsum. cbn [concat]. rewrite app_nil_r. unfold total_of, lsum.
    induction (e_pts e) as [|q l IH]; cbn [filter map fold_right]; [reflexivity|].
    rewrite <- IH. unfold bmul. cbn [o0 ROps]. destruct (m q); cbn [map fold_right]; lra.
  Qed.
  Lemma count_of_R m : count_of e m = rcount [e_pts e] m.
  Proof. rewrite rcount_length. cbn [concat]. rewrite app_nil_r. reflexivity. Qed.
  Lemma max_list_is_max l (phi : P -> R) : is_max l phi (max_list (map phi l)).
  Proof.
    induction l as [|q l IH]; [reflexivity|].
    change (is_max ([q] ++ l) phi (max_list (phi q :: map phi l))).
    pose proof (is_max_app [q] l phi (Some (phi q)) _ (is_max_single q phi) IH) as H.
    unfold max_list in *. cbn [fold_right]. destruct (fold_right _ None (map phi l)); cbn [opt_op] in H; [|exact H].
    now rewrite maxF_Rmax in H.
  Qed.
  Lemma max_of_R m phi : max_of e m phi = rmax K [e_pts e] m phi.
  Proof.
    apply (is_max_unique (filter m (e_pts e)) phi).
    - apply max_list_is_max.
    - pose proof (rmax_is_max [e_pts e] m phi) as H. cbn [concat] in H. now rewrite app_nil_r in H.
  Qed.
  Lemma rsum_ext rk (f g : P -> R) : (forall p, f p = g p) -> rsum K rk f = rsum K rk g.
  Proof. intros H. f_equal. apply functional_extensionality, H. Qed.
  Lemma rcount_ext (rk : list (list P)) (f g : P -> bool) : (forall p, f p = g p) -> rcount rk f = rcount rk g.
  Proof. intros H. f_equal. apply functional_extensionality, H. Qed.
  Lemma rmax_ext rk m m' (f g : P -> R) : (forall p, m p = m' p) -> (forall p, f p = g p) -> rmax K rk m f = rmax K rk m' g.
  Proof. intros H H'. f_equal; apply functional_extensionality; auto. Qed.

  Lemma view_init : view (init_state K c) = simple_init e.
  Proof.
    unfold view, init_state, simple_init. cbn [s_f s_u s_t s_delta s_str s_Gold s_off s_nit s_nfev mat c_f0 c_u0 c_h c_offset c_force library_call o0 o1 oadd oltb ROps view_str].
    assert (E : (fun p => if comp c p then (if Rltb (match e_u0 e with None => fun _ => 0 | Some u => u end p)
        (e_h e p + match e_offset e with Some x => x | None => 0 end) then e_h e p + match e_offset e with Some x => x | None => 0 end
        else match e_u0 e with None => fun _ => 0 | Some u => u end p) else match e_u0 e with None => fun _ => 0 | Some u => u end p)
      = (fun p => if e_comp e p then (if ltb (match e_u0 e with None => fun _ => 0 | Some u => u end p)
        (e_h e p + match e_offset e with Some x => x | None => 0 end) then e_h e p + match e_offset e with Some x => x | None => 0 end
        else match e_u0 e with None => fun _ => 0 | Some u => u end p) else match e_u0 e with None => fun _ => 0 | Some u => u end p)).
    { apply functional_extensionality. intros p. rewrite comp_c. reflexivity. }
    rewrite E. f_equal. apply functional_extensionality. intros p. rewrite pad_c. reflexivity.
  Qed.

  (** One iteration. *)
  Section Step.
    Variable s : @state R P.
    Hypothesis Hp : pad_inv c s.
    Local Notation h := (cg_half K c s).
    Local Notation v := (view s).

    Lemma i_c_R p : i_c v p = cg_set K c s p.
    Proof. reflexivity. Qed.
    Lemma c_comp p : e_comp e p && cg_set K c s p = cg_set K c s p.
    Proof.
      destruct (e_comp e p) eqn:E; [reflexivity|]. rewrite <- comp_c in E. destruct (Hp p E) as [H _].
      unfold cg_set. cbn [c_hard library_call]. rewrite H. symmetry. apply Rltb_false. cbn [o0 ROps]. lra.
    Qed.
    Lemma i_A_R : i_A e v = rcount [e_pts e] (cg_set K c s).
    Proof. apply count_of_R. Qed.
    Lemma i_off_R : i_off e v = h_off h.
    Proof.
      rewrite cg_half_off. unfold i_off. cbn [c_ext library_call c_ranks]. destruct (e_ext e); [|reflexivity].
      rewrite i_A_R, total_of_R, count_of_R.
      rewrite (rcount_ext _ (i_inside e v) (cg_set K c s)) by (intros p; apply c_comp).
      rewrite (rsum_ext _ _ (fun p => bmul K (comp c p && cg_set K c s p) (s_u s p - c_h c p))); [reflexivity|].
      intros p. rewrite comp_c. reflexivity.
    Qed.
    Lemma i_g_R p : i_g e v p = h_g h p.
    Proof. rewrite cg_half_g. unfold i_g. rewrite i_off_R. reflexivity. Qed.
    Lemma i_G_R : i_G e v = rsum K (c_ranks c) (fun p => bmul K (comp c p) (bmul K (cg_set K c s p) (h_g h p * h_g h p))).
    Proof. unfold i_G. rewrite total_of_R. apply rsum_ext. intros p. rewrite comp_c, i_g_R. reflexivity. Qed.
    Lemma i_t_R p : i_t e v p = h_t h p.
    Proof. rewrite cg_half_t, comp_c, <- i_G_R. unfold i_t. rewrite i_g_R. reflexivity. Qed.
    Lemma i_t_fun : i_t e v = h_t h.
    Proof. apply functional_extensionality, i_t_R. Qed.
    Lemma i_x_R : i_x e v = cg_x c s.
    Proof. unfold i_x, cg_x. rewrite total_of_R, i_t_fun. cbn [oopp ROps]. reflexivity. Qed.
    Lemma i_tau_R : i_tau e v = h_tau h.
    Proof.
      rewrite cg_half_tau. unfold i_tau. rewrite i_A_R, i_x_R, total_of_R.
      rewrite (rsum_ext _ _ (fun p => bmul K (comp c p) (bmul K (cg_set K c s p) (h_g h p * h_t h p)))); [reflexivity|].
      intros p. rewrite comp_c, i_g_R, i_t_R. reflexivity.
    Qed.
    Lemma i_G'_R : i_G' e v = h_G h.
    Proof. rewrite cg_half_G. unfold i_G'. rewrite i_A_R, i_x_R, i_G_R. reflexivity. Qed.
    Lemma i_p1_R : i_p1 e v = h_f h.
    Proof. apply functional_extensionality. intros p. rewrite cg_half_f, <- i_tau_R, <- i_t_R. reflexivity. Qed.
    Lemma i_tensile_R p : i_tensile e v p = mask_tensile K h p.
    Proof. unfold i_tensile, mask_tensile, leb. rewrite i_p1_R. reflexivity. Qed.
    Lemma i_nc_R p : i_nc e v p = nc_set K c h p.
    Proof.
      unfold i_nc, nc_set. rewrite comp_c, i_tensile_R, i_g_R. unfold mask_flowing. cbn [c_hard library_call].
      now rewrite orb_false_r.
    Qed.
    Lemma i_padpres_R : i_padpres e v = pad_pres K c h.
    Proof.
      unfold i_padpres, pad_pres. rewrite max_of_R. cbn [c_ranks library_call].
      rewrite (rmax_ext [e_pts e] (padding e) (pad c) (fun p => Rabs (i_p1 e v p)) (fun p => absF K (h_f h p))).
      2: intros p; now rewrite pad_c. 2: intros p; now rewrite absF_Rabs, i_p1_R.
      destruct (Nat.ltb 0 (rcount [e_pts e] (pad c))) eqn:E; [reflexivity|].
      pose proof (proj1 (rcount_zero [e_pts e] (pad c)) E) as Z.
      pose proof (rmax_is_max [e_pts e] (pad c) (fun p => absF K (h_f h p))) as M.
      destruct (rmax K [e_pts e] (pad c) _) as [x|]; [|reflexivity].
      destruct M as [_ [p [Hin _]]]. apply filter_In in Hin. destruct Hin as [H1 H2].
      rewrite (Z p H1) in H2. discriminate.
    Qed.
    Lemma i_maxpres_R : max_pres K c h = Ok (i_maxpres e v).
    Proof.
      unfold i_maxpres, max_pres. rewrite max_of_R. cbn [c_ranks c_hard library_call]. f_equal.
      rewrite (rmax_ext [e_pts e] (i_tensile e v) (mask_tensile K h) (i_p1 e v) (h_f h)).
      2: apply i_tensile_R. 2: intros p; now rewrite i_p1_R.
      destruct (Nat.ltb 0 (rcount [e_pts e] (mask_tensile K h))) eqn:E; [reflexivity|].
      pose proof (proj1 (rcount_zero [e_pts e] (mask_tensile K h)) E) as Z.
      pose proof (rmax_is_max [e_pts e] (mask_tensile K h) (h_f h)) as M.
      destruct (rmax K [e_pts e] (mask_tensile K h) _) as [x|]; [|reflexivity].
      destruct M as [_ [p [Hin _]]]. apply filter_In in Hin. destruct Hin as [H1 H2].
      rewrite (Z p H1) in H2. discriminate.
    Qed.
    Lemma i_p2_R : i_p2 e v = clip_tensile K h.
    Proof. apply functional_extensionality. intros p. unfold i_p2, clip_tensile. rewrite i_tensile_R, i_p1_R. reflexivity. Qed.
    Lemma i_p3_R : i_p3 e v = adjust_force K c (clip_tensile K h).
    Proof.
      unfold i_p3, adjust_force. rewrite i_p2_R. cbn [c_ext library_call]. destruct (e_ext e) as [F|]; [|reflexivity].
      rewrite total_of_R. cbv zeta. cbn [oopp oeqb mat ROps o0 oopp onat odiv omul c_nsurf c_ranks library_call].
      rewrite (rsum_ext _ (fun p => bmul K (e_comp e p) (clip_tensile K h p)) (fun p => bmul K (comp c p) (clip_tensile K h p)))
        by (intros p; now rewrite comp_c).
      rewrite eqb0_R. destruct (Reqb _ 0); [|reflexivity].
      apply functional_extensionality. intros p. now rewrite pad_c.
    Qed.
    Lemma i_changed_R : i_changed e v = any_nc K c h.
    Proof. unfold i_changed, any_nc. rewrite count_of_R, (rcount_ext _ _ (nc_set K c h)) by apply i_nc_R. reflexivity. Qed.
    Lemma i_p4_R : i_p4 e v = new_force K c h.
    Proof.
      unfold i_p4, new_force. rewrite cg_half_str, i_changed_R, i_p3_R. unfold clip_flow. cbn [c_hard library_call].
      destruct (any_nc K c h); [|reflexivity]. apply functional_extensionality. intros p.
      cbn [mat ROps oadd omul]. rewrite comp_c, i_tau_R, i_nc_R, i_g_R. reflexivity.
    Qed.
    Lemma i_tot_R : i_tot e v = - rsum K [e_pts e] (fun p => bmul K (comp c p) (new_force K c h p)).
    Proof. unfold i_tot. rewrite total_of_R, i_p4_R. f_equal. apply rsum_ext. intros p. now rewrite comp_c. Qed.
  End Step.

  Lemma sqrt_lt x y : 0 <= x -> Rltb (sqrt x) y = Rltb 0 y && Rltb x (y * y).
  Proof.
    intros Hx. destruct (Rltb 0 y) eqn:E.
    - apply Rltb_true in E. cbn [andb]. apply Rltb_ext. split; intros H.
      + apply Rnot_le_lt. intros Hle. apply sqrt_le_1_alt in Hle. rewrite sqrt_square in Hle by lra. lra.
      + rewrite <- (sqrt_square y) by lra. apply sqrt_lt_1_alt. lra.
    - apply Rltb_false in E. cbn [andb]. apply Rltb_false. pose proof (sqrt_pos x). lra.
  Qed.

  Lemma if_nonneg (b b' : bool) G : 0 <= G -> 0 <= (if b then if b' then G else 0 else G).
  Proof. destruct b, b'; lra. Qed.

  (** The part of the library's test the example shares. *)
  Lemma iter_agrees s fu : pad_inv c s -> iter K c s = Ok fu -> (exists p, In p (e_pts e) /\ e_comp e p = true) ->
    exists w, simple_iter e (view s) = Ret (view (fu_state fu), w) /\
      (fu_conv fu = true -> (forall F, e_ext e = Some F -> Rabs (w_total w - F) < e_forcetol e) -> w_conv w = true) /\
      w_total w = - rsum K [e_pts e] (fun p => bmul K (e_comp e p) (s_f (fu_state fu) p)).
  Proof.
    intros Hp Hi [q [Hq Hc]]. unfold iter, first_half in Hi. cbn [c_hard library_call] in Hi.
    unfold second_half in Hi. rewrite (i_maxpres_R s Hp) in Hi.
    assert (X : forall a b : @full R P, Ok a = Ok b -> b = a) by (intros a b E; congruence). apply X in Hi. subst fu. clear X.
    cbn [fu_state fu_conv].
    unfold simple_iter. rewrite !max_of_R.
    pose proof (i_p4_R s Hp) as E4. pose proof (i_off_R s Hp) as Eo. unfold i_u. rewrite E4, Eo.
    destruct (rmax_ge [e_pts e] everywhere (fun p => Rabs (e_disp e (new_force K c (cg_half K c s)) p - v_u (view s) p)) q
      ltac:(cbn [concat]; rewrite app_nil_r; exact Hq) eq_refl) as (d&Ed&_).
    destruct (rmax_ge [e_pts e] (e_comp e) (fun p => times (i_c (view s) p) (e_h e p + h_off (cg_half K c s) - e_disp e (new_force K c (cg_half K c s)) p)) q
      ltac:(cbn [concat]; rewrite app_nil_r; exact Hq) Hc) as (pn&Epn&_).
    rewrite Ed, Epn. eexists. split; [|split].
    - apply f_equal. apply f_equal2; [|reflexivity].
      rewrite (i_t_fun s Hp), (i_changed_R s Hp), (i_G'_R s Hp).
      unfold view. cbn [s_f s_u s_t s_delta s_str s_Gold s_off s_nit s_nfev v_nit v_nfev].
      unfold new_delta, new_str, new_G. rewrite cg_half_str. unfold cg_half at 9. cbn [h_nfev].
      destruct (any_nc K c (cg_half K c s)); reflexivity.
    - cbn [w_conv w_total]. intros Hconv HF. apply andb_prop in Hconv. destruct Hconv as [_ Ht].
      rewrite cg_half_str in Ht. apply andb_prop in Ht. destruct Ht as [Ht T5].
      apply andb_prop in Ht. destruct Ht as [Ht T4]. apply andb_prop in Ht. destruct Ht as [Ht T3].
      apply andb_prop in Ht. destruct Ht as [T1 T2].
      assert (A1 : i_conv1 e (view s) = true).
      { unfold i_conv1. destruct (e_ext e) as [F|]; [|reflexivity]. apply Rltb_true. auto. }
      rewrite A1. cbn [andb]. rewrite !andb_true_iff. repeat split.
      + rewrite (i_A_R s), (i_G'_R s Hp). unfold new_G in T1. rewrite cg_half_str in T1.
        cbn [h_Acg cg_half] in T1. cbn [o0 oltb omul odiv onat ROps c_ranks c_pentol library_call] in T1.
        rewrite ltb_R.
        assert (G0 : 0 <= h_G (cg_half K c s)).
        { rewrite cg_half_G. cbv zeta. apply if_nonneg. rewrite rsum_lsum.
          apply lsum_nonneg. intros p _. unfold bmul. cbn [o0 ROps]. destruct (comp c p); [|lra].
          destruct (cg_set K c s p); [apply Rle_0_sqr|lra]. }
        change (h_Acg (cg_half K c s)) with (rcount [e_pts e] (cg_set K c s)) in T1.
        destruct (Nat.ltb 0 (rcount [e_pts e] (cg_set K c s))) eqn:EA; rewrite sqrt_lt; [exact T1| |exact T1|exact G0].
        apply Rmult_le_pos; [exact G0|]. apply Rlt_le, Rinv_0_lt_compat. apply (lt_INR 0). apply Nat.ltb_lt in EA. exact EA.
      + rewrite (rmax_ext (c_ranks c) (comp c) (e_comp e) _ (fun p => times (i_c (view s) p) (e_h e p + h_off (cg_half K c s) - e_disp e (new_force K c (cg_half K c s)) p)) comp_c) in T2 by reflexivity.
        cbn [c_ranks library_call] in T2. rewrite Epn, maxF_Rmax in T2. exact T2.
      + rewrite (rmax_ext (c_ranks c) _ everywhere _ (fun p => Rabs (e_disp e (new_force K c (cg_half K c s)) p - v_u (view s) p))) in T3.
        2: reflexivity. 2: intros p; now rewrite absF_Rabs.
        cbn [c_ranks library_call] in T3. rewrite Ed in T3. exact T3.
      + exact T4.
      + rewrite (i_padpres_R s Hp). exact T5.
    - cbn [w_total s_f]. rewrite (i_tot_R s Hp). f_equal. apply rsum_ext. intros p. now rewrite comp_c.
  Qed.

  Hypothesis Surf : exists p, In p (e_pts e) /\ e_comp e p = true.

  Lemma hard_c : hardness_nonneg c. Proof. exact Logic.I. Qed.
  Lemma iter_ok s : exists fu, iter K c s = Ok fu.
  Proof.
    unfold iter, first_half. cbn [c_hard library_call]. unfold second_half, max_pres. cbn [c_hard library_call]. eauto.
  Qed.
  Lemma iter_nit s fu : iter K c s = Ok fu -> s_nit (fu_state fu) = S (s_nit s).
  Proof. intros H. apply iter_inv in H. destruct H as (h&mp&_&_&_&_&_&_&_&_&_&Hn&_). exact Hn. Qed.
  Lemma after_S k s fu : after c k = Ok s -> iter K c s = Ok fu -> after c (S k) = Ok (fu_state fu).
  Proof. intros H H'. cbn [after]. now rewrite H, H'. Qed.
  Definition reached (s : @state R P) : Prop := pad_inv c s /\ after c (s_nit s) = Ok s.
  Lemma reached_init : reached (init_state K c).
  Proof. split; [apply pad_inv_init|reflexivity]. Qed.
  Lemma reached_step s fu : reached s -> iter K c s = Ok fu -> reached (fu_state fu).
  Proof.
    intros [H1 H2] Hi. split; [eapply pad_inv_step; eauto using hard_c|].
    rewrite (iter_nit s fu Hi). eapply after_S; eauto.
  Qed.

  (** What the library returns. *)
  Lemma library_result n r : ccg c n = Ok r ->
    exists s fu, reached s /\ iter K c s = Ok fu /\ x_nit r = S (s_nit s) /\ (x_nit r <= n)%nat /\
      (x_success r = true -> fu_conv fu = true) /\ (x_success r = false -> x_nit r = n) /\
      x_x r = s_u (fu_state fu) /\ x_jac r = (fun p => - s_f (fu_state fu) p) /\ x_fun r = energy K c (fu_state fu) /\
      x_offset r = s_off (fu_state fu) /\ x_nfev r = s_nfev (fu_state fu).
  Proof.
    intros H. unfold ccg, run, run_trace in H.
    assert (G : forall fuel s last evs, reached s -> (fuel + s_nit s = n)%nat ->
        match last with None => s_nit s = O
        | Some fu => exists s0, reached s0 /\ iter K c s0 = Ok fu /\ s = fu_state fu end ->
        loop K c n fuel s last = (evs, Ok r) ->
        exists s fu, reached s /\ iter K c s = Ok fu /\ x_nit r = S (s_nit s) /\ (x_nit r <= n)%nat /\
      (x_success r = true -> fu_conv fu = true) /\ (x_success r = false -> x_nit r = n) /\
      x_x r = s_u (fu_state fu) /\ x_jac r = (fun p => - s_f (fu_state fu) p) /\ x_fun r = energy K c (fu_state fu) /\
      x_offset r = s_off (fu_state fu) /\ x_nfev r = s_nfev (fu_state fu)).
    { clear H. induction fuel as [|fuel IH]; intros s last evs Hs Hn Hl H; cbn [loop] in H.
      - destruct last as [fu|]; [|discriminate]. destruct Hl as (s0&H0&Hi&->).
        injection H as _ <-. exists s0, fu. unfold failed_result. cbn [x_nit x_success x_x x_jac x_fun x_offset x_nfev].
        pose proof (iter_nit s0 fu Hi) as En. split; [exact H0|]. split; [exact Hi|]. split; [exact En|]. split; [lia|].
        split; [discriminate|]. split; [intros _; lia|]. repeat split.
      - destruct (iter_ok s) as [fu Hi]. rewrite Hi in H. destruct (fu_conv fu) eqn:Ec.
        + injection H as _ <-. exists s, fu. unfold converged_result. cbn [x_nit x_success x_x x_jac x_fun x_offset x_nfev].
          pose proof (iter_nit s fu Hi) as En. split; [exact Hs|]. split; [exact Hi|]. split; [exact En|]. split; [lia|].
          split; [auto|]. split; [discriminate|]. repeat split.
        + destruct (loop K c n fuel (fu_state fu) (Some fu)) as [evs' o] eqn:El.
          assert (Eo : o = Ok r) by (injection H; auto). subst o.
          eapply (IH (fu_state fu) (Some fu)); eauto using reached_step.
          rewrite (iter_nit s fu Hi). lia. }
    destruct (loop K c n n (init_state K c) None) as [evs o] eqn:El. cbn [snd] in H. subst o.
    eapply G; eauto using reached_init. cbn. lia.
  Qed.

  (** Whether the example stops after the iteration that follows state [s]. *)
  Definition stops_at (s : @state R P) : bool :=
    match simple_iter e (view s) with Ret (_, w) => negb (e_verbose e) && w_conv w | Exc _ => false end.

  (** What the example returns. *)
  Lemma simple_result_inv n y : simple_solve e n = Ret y ->
    (n = O /\ y_success y = false /\ y_nit y = O /\ y = simple_result e false (SMaxiter O) (simple_init e)) \/
    exists s fu, reached s /\ iter K c s = Ok fu /\ y_nit y = S (s_nit s) /\ (y_nit y <= n)%nat /\
      y = simple_result e (y_success y) (if y_success y then SConverged else SMaxiter n) (view (fu_state fu)) /\
      stops_at s = y_success y /\ (y_success y = false -> y_nit y = n /\ e_callback e = false) /\
      (e_callback e = true -> y_nit y = 1%nat) /\
      (forall j s', (j < s_nit s)%nat -> after c j = Ok s' -> stops_at s' = false).
  Proof.
    intros H. unfold simple_solve in H. rewrite <- view_init in *.
    assert (G : forall fuel s st, reached s -> (fuel + s_nit s = n)%nat ->
        (forall j s', (j < s_nit s)%nat -> after c j = Ok s' -> stops_at s' = false) ->
        (s_nit s = O /\ s = init_state K c \/
         e_callback e = false /\ exists s0 fu, reached s0 /\ iter K c s0 = Ok fu /\ s = fu_state fu /\ stops_at s0 = false) ->
        simple_loop e n fuel (view s) st = Ret y ->
        (n = O /\ y_success y = false /\ y_nit y = O /\ y = simple_result e false (SMaxiter O) (view (init_state K c))) \/
        exists s fu, reached s /\ iter K c s = Ok fu /\ y_nit y = S (s_nit s) /\ (y_nit y <= n)%nat /\
      y = simple_result e (y_success y) (if y_success y then SConverged else SMaxiter n) (view (fu_state fu)) /\
      stops_at s = y_success y /\ (y_success y = false -> y_nit y = n /\ e_callback e = false) /\
      (e_callback e = true -> y_nit y = 1%nat) /\
      (forall j s', (j < s_nit s)%nat -> after c j = Ok s' -> stops_at s' = false)).
    { clear H. induction fuel as [|fuel IH]; intros s st Hs Hn Hj Hl H; cbn [simple_loop] in H.
      - destruct (e_logger e && negb st); [discriminate|]. injection H as <-.
        destruct Hl as [[H0 ->]|(Hcb&s0&fu&H0&Hi&->&Hst)].
        + left. cbn in Hn. subst n. auto.
        + right. exists s0, fu. cbn [y_success y_nit simple_result view v_nit]. pose proof (iter_nit s0 fu Hi) as En.
          split; [exact H0|]. split; [exact Hi|]. split; [exact En|]. split; [lia|]. split; [reflexivity|]. split; [exact Hst|].
          split; [intros _; split; [lia|exact Hcb]|]. split; [congruence|]. intros j s' Hlt. apply Hj. lia.
      - destruct (iter_ok s) as [fu Hi]. destruct (iter_agrees s fu (proj1 Hs) Hi Surf) as (w&Ew&_&_).
        pose proof (iter_nit s fu Hi) as En.
        assert (Est : stops_at s = negb (e_verbose e) && w_conv w) by (unfold stops_at; now rewrite Ew).
        rewrite Ew in H. destruct (negb (e_verbose e) && w_conv w) eqn:Ec.
        + injection H as <-. right. exists s, fu. cbn [y_success y_nit simple_result view v_nit].
          split; [exact Hs|]. split; [exact Hi|]. split; [exact En|]. split; [lia|]. split; [reflexivity|]. split; [exact Est|].
          split; [discriminate|]. split; [|exact Hj]. rewrite En.
          intros Hcb. destruct Hl as [[-> _]|[Hcb' _]]; congruence.
        + destruct (e_callback e) eqn:Ecb; [discriminate|].
          apply (IH (fu_state fu) true); auto.
          * eapply reached_step; eauto.
          * lia.
          * rewrite En. intros j s' Hlt Ha. destruct (Nat.eq_dec j (s_nit s)) as [->|Hne]; [|apply (Hj j); auto; lia].
            destruct Hs as [_ Hs]. rewrite Hs in Ha. injection Ha as <-. exact Est.
          * right. split; [reflexivity|]. exists s, fu. auto. }
    apply (G n (init_state K c) false); auto using reached_init.
    intros j s' Hlt. cbn in Hlt. lia.
  Qed.

  Lemma simple_returns n : e_callback e = false -> (e_logger e = false \/ (1 <= n)%nat) -> exists y, simple_solve e n = Ret y.
  Proof.
    intros Hcb Hn. unfold simple_solve. rewrite <- view_init.
    assert (G : forall fuel s st, reached s -> (e_logger e && negb st = false \/ (1 <= fuel)%nat) ->
       exists y, simple_loop e n fuel (view s) st = Ret y).
    { induction fuel as [|fuel IH]; intros s st Hs Hst; cbn [simple_loop].
      - destruct Hst as [->|]; [eauto|lia].
      - destruct (iter_ok s) as [fu Hi]. destruct (iter_agrees s fu (proj1 Hs) Hi Surf) as (w&Ew&_&_).
        rewrite Ew. destruct (negb (e_verbose e) && w_conv w); [eauto|]. rewrite Hcb.
        apply IH; [eapply reached_step; eauto|]. left. now rewrite andb_false_r. }
    apply G; [apply reached_init|]. destruct Hn as [->|]; auto.
  Qed.

  Lemma same_nit n m r y : ccg c n = Ok r -> simple_solve e m = Ret y -> x_nit r = y_nit y ->
    y_x y = x_x r /\ y_jac y = x_jac r /\ y_fun y = x_fun r /\ y_offset y = x_offset r /\ y_nfev y = x_nfev r.
  Proof.
    intros Hr Hy En.
    destruct (library_result n r Hr) as (s&fu&Hs&Hi&E1&E2&E3&E4&Ex&Ej&Ef&Eo&Ev).
    destruct (simple_result_inv m y Hy) as [(_&_&H0&_)|(s'&fu'&Hs'&Hi'&E1'&E2'&Ey&_)]; [lia|].
    assert (s' = s).
    { destruct Hs as [_ Hs], Hs' as [_ Hs']. assert (s_nit s = s_nit s') by lia. rewrite H in Hs. congruence. }
    subst s'. assert (fu' = fu) by congruence. subst fu'.
    rewrite Ey, Ex, Ej, Ef, Eo, Ev. unfold simple_result, view.
    cbn [y_x y_jac y_fun y_offset y_nfev v_p v_u v_off v_nfev]. repeat split; auto.
    unfold energy. rewrite total_of_R. reflexivity.
  Qed.

  Lemma total_R (f : P -> R) : lsum (filter (fun p => c_slice c p && negb (c_masked c p)) (grid c)) (fun p => - f p)
    = - rsum K [e_pts e] (fun p => bmul K (e_comp e p) (f p)).
  Proof.
    rewrite <- total_of_R. unfold grid. cbn [c_ranks library_call concat c_slice c_masked]. rewrite app_nil_r.
    rewrite lsum_opp. f_equal. unfold total_of, lsum.
    rewrite (filter_ext (fun p => e_comp e p && negb false) (e_comp e)); [reflexivity|]. intros p. apply andb_true_r.
  Qed.

  Lemma sooner n r : e_verbose e = false -> e_callback e = false -> ccg c n = Ok r -> x_success r = true ->
    (forall F, e_ext e = Some F -> Rabs (total c r - F) < e_forcetol e) ->
    exists y, simple_solve e n = Ret y /\ y_success y = true /\ (y_nit y <= x_nit r)%nat.
  Proof.
    intros Hv Hcb Hr Hsu HF.
    destruct (library_result n r Hr) as (s&fu&Hs&Hi&E1&E2&E3&E4&Ex&Ej&Ef&Eo&Ev).
    destruct (iter_agrees s fu (proj1 Hs) Hi Surf) as (w&Ew&Hc&Ht).
    assert (St : stops_at s = true).
    { unfold stops_at. rewrite Ew, Hv. cbn [negb andb]. apply Hc; [auto|]. intros F EF. rewrite Ht, <- total_R, <- Ej. auto. }
    assert (Hn : (1 <= n)%nat) by lia.
    destruct (simple_returns n Hcb (or_intror Hn)) as [y Hy]. exists y. split; [exact Hy|].
    destruct (simple_result_inv n y Hy) as [(H0&_)|(s'&fu'&Hs'&Hi'&E1'&E2'&_&Es&Ef'&_&Hj)]; [lia|].
    assert (L : (s_nit s' <= s_nit s)%nat).
    { destruct (le_lt_dec (s_nit s') (s_nit s)); auto. rewrite (Hj (s_nit s) s) in St; [discriminate|lia|apply Hs]. }
    split; [|lia]. destruct (y_success y) eqn:E; auto. destruct (Ef' eq_refl) as [En _].
    assert (s_nit s = s_nit s') by lia. destruct Hs as [_ Hs], Hs' as [_ Hs']. rewrite H, Hs' in Hs. injection Hs as ->.
    congruence.
  Qed.

  (** What success means. *)
  Lemma success n y : simple_solve e n = Ret y -> y_success y = true ->
    e_verbose e = false /\
    (forall p, e_comp e p = false -> y_jac y p = 0) /\
    y_x y = e_disp e (fun p => - y_jac y p) /\
    y_fun y = / 2 * lsum (filter (e_comp e) (e_pts e)) (fun p => y_jac y p * y_x y p) /\
    (forall F, e_ext e = Some F -> Rabs (lsum (filter (e_comp e) (e_pts e)) (y_jac y) - F) < e_forcetol e) /\
    (1 <= y_nit y <= n)%nat /\ y_nfev y = S (2 * y_nit y) /\ (e_callback e = true -> y_nit y = 1%nat).
  Proof.
    intros Hy Hs.
    destruct (simple_result_inv n y Hy) as [(_&H0&_)|(s&fu&Hr&Hi&E1&E2&Ey&Es&_&Ecb&_)]; [congruence|].
    destruct (iter_agrees s fu (proj1 Hr) Hi Surf) as (w&Ew&_&Ht).
    pose proof (reached_step s fu Hr Hi) as [Hpad _].
    rewrite Hs in Es. unfold stops_at in Es. rewrite Ew in Es. apply andb_prop in Es. destruct Es as [Ev Ec].
    apply negb_true_iff in Ev.
    assert (Ej : y_jac y = fun p => - s_f (fu_state fu) p) by (rewrite Ey; reflexivity).
    assert (Ex : y_x y = s_u (fu_state fu)) by (rewrite Ey; reflexivity).
    assert (Ef : y_fun y = - total_of e (e_comp e) (fun p => s_f (fu_state fu) p * s_u (fu_state fu) p) / 2) by (rewrite Ey; reflexivity).
    assert (En : y_nfev y = s_nfev (fu_state fu)) by (rewrite Ey; reflexivity).
    split; [exact Ev|]. split; [|split; [|split; [|split; [|split; [|split]]]]].
    - intros p Hp. rewrite Ej. rewrite <- comp_c in Hp. destruct (Hpad p Hp) as [-> _]. lra.
    - rewrite Ex, Ej. apply iter_inv in Hi. destruct Hi as (h&mp&_&_&_&Hf&Hu&_). rewrite Hu, Hf.
      cbn [c_disp library_call]. f_equal. apply functional_extensionality. intros p. lra.
    - rewrite Ef, Ej, Ex. unfold total_of. fold (lsum (filter (e_comp e) (e_pts e)) (fun p => s_f (fu_state fu) p * s_u (fu_state fu) p)).
      rewrite (lsum_ext _ (fun p => - s_f (fu_state fu) p * s_u (fu_state fu) p) (fun p => - (s_f (fu_state fu) p * s_u (fu_state fu) p)))
        by (intros; lra).
      rewrite lsum_opp. lra.
    - intros F EF.
      assert (W : Rabs (w_total w - F) < e_forcetol e).
      { unfold simple_iter in Ew. destruct (max_of e everywhere _); [|discriminate]. destruct (max_of e (e_comp e) _); [|discriminate].
        assert (X : forall a b : @sstate P * svalues, Ret a = Ret b -> b = a) by (intros a b E; congruence).
        apply X in Ew. apply (f_equal snd) in Ew. cbn [snd] in Ew. subst w. cbn [w_conv w_total] in *.
        repeat (apply andb_prop in Ec; destruct Ec as [Ec _]). unfold i_conv1 in Ec. rewrite EF in Ec. apply Rltb_true in Ec. exact Ec. }
      rewrite Ht in W. rewrite Ej, lsum_opp. rewrite <- total_of_R in W. exact W.
    - lia.
    - rewrite En, E1. clear - Hr Hi Surf.
      assert (G : forall k s, after c k = Ok s -> s_nfev s = S (2 * k)).
      { induction k as [|k IH]; intros s' H; cbn [after] in H; [injection H as <-; reflexivity|].
        destruct (after c k) as [s1|] eqn:Ea; [|discriminate]. destruct (iter K c s1) as [fu1|] eqn:Ei; [|discriminate].
        injection H as <-. specialize (IH s1 eq_refl). unfold iter, first_half in Ei. cbn [c_hard library_call] in Ei.
        unfold second_half, max_pres in Ei. cbn [c_hard library_call] in Ei.
        assert (X : forall a b : @full R P, Ok a = Ok b -> b = a) by (intros a b E; congruence).
        apply X in Ei. subst fu1. cbn [fu_state s_nfev]. change (h_nfev (cg_half K c s1)) with (S (s_nfev s1)). lia. }
      destruct Hr as [_ Hr]. apply (G (S (s_nit s))). eapply after_S; eauto.
    - exact Ecb.
  Qed.

  Lemma library_returns n : (1 <= n)%nat -> exists r, ccg c n = Ok r.
  Proof.
    intros Hn. unfold ccg, run, run_trace.
    assert (G : forall fuel s last, (last <> None \/ (1 <= fuel)%nat) -> exists r, snd (loop K c n fuel s last) = Ok r).
    { induction fuel as [|fuel IH]; intros s last Hl; cbn [loop].
      - destruct last as [fu|]; [cbn; eauto|]. destruct Hl; [congruence|lia].
      - destruct (iter_ok s) as [fu Hi]. rewrite Hi. destruct (fu_conv fu); [cbn; eauto|].
        destruct (IH (fu_state fu) (Some fu)) as [r Hr]; [left; discriminate|].
        destruct (loop K c n fuel (fu_state fu) (Some fu)) as [evs o]. cbn in *. eauto. }
    apply G. auto.
  Qed.
End Agree.

Lemma callback_raises {P} (e : scall P) : (exists p, In p (e_pts e) /\ e_comp e p = true) -> forall n,
  e_callback e = true -> (1 <= n)%nat ->
  simple_solve e n = Exc AttributeErr \/
  exists y, simple_solve e n = Ret y /\ y_success y = true /\ y_nit y = 1%nat.
Proof.
  intros Surf n Hcb Hn. destruct n as [|n]; [lia|].
  set (bs := fun (_ : R -> R) (_ _ : R) => @None R).
  destruct (iter_ok e 0 0 0 0 bs (init_state (ROps P) (library_call e 0 0 0 0 bs))) as [fu Hi].
  destruct (iter_agrees e 0 0 0 0 bs _ fu (pad_inv_init _) Hi Surf) as (w&Ew&_).
  rewrite view_init in Ew. unfold simple_solve. cbn [simple_loop]. rewrite Ew, Hcb.
  destruct (negb (e_verbose e) && w_conv w); [right|left; reflexivity].
  eexists. split; [reflexivity|]. split; [reflexivity|]. cbn [simple_result y_nit view v_nit].
  rewrite (iter_nit e 0 0 0 0 bs _ fu Hi). reflexivity.
Qed.

(** ** Default tolerances *)
Lemma sumsq_pos l : (exists h, In h l /\ h <> 0) -> 0 < fold_right Rplus 0 (map (fun h => h ^ 2) l).
Proof.
  assert (N : forall l, 0 <= fold_right Rplus 0 (map (fun h => h ^ 2) l)).
  { clear l. induction l as [|a l IH]; cbn [map fold_right]; [lra|]. pose proof (pow2_ge_0 a). lra. }
  intros [h [Hh Hn]]. induction l as [|a l IH]; [destruct Hh|]. cbn [map fold_right]. destruct Hh as [->|Hh].
  - pose proof (N l). assert (0 < h ^ 2) by (rewrite <- Rsqr_pow2; apply Rsqr_pos_lt; auto). lra.
  - pose proof (pow2_ge_0 a). specialize (IH Hh). lra.
Qed.
Lemma sumsq_shift l m : fold_right Rplus 0 (map (fun h => (h - m) ^ 2) l) =
  fold_right Rplus 0 (map (fun h => h ^ 2) l) - 2 * m * fold_right Rplus 0 l + INR (length l) * m ^ 2.
Proof.
  induction l as [|a l IH]; cbn [map fold_right length]; [simpl; lra|]. rewrite IH, S_INR. ring.
Qed.
Lemma default_tolerance heights n off :
  0 < n -> (exists h, In h heights /\ h <> 0) ->
  exists t, default_pentol heights n off = Ret t /\ 0 < t /\
    sqrt (INR (length heights)) *
      (sqrt (fold_right Rplus 0 (map (fun h => (h - fold_right Rplus 0 heights / INR (length heights)) ^ 2) heights) / INR (length heights)) / (10 * n)) <= t.
Proof.
  intros Hn Hh. pose proof (sumsq_pos heights Hh) as Hs. unfold default_pentol.
  set (Q := fold_right Rplus 0 (map (fun h => h ^ 2) heights)) in *. set (m := fold_right Rplus 0 heights).
  assert (HN : 0 < INR (length heights)).
  { destruct Hh as [h [Hi _]]. apply lt_0_INR. destruct heights; [destruct Hi|cbn; lia]. }
  assert (Ht : 0 < sqrt Q / (10 * n)).
  { apply Rdiv_lt_0_compat; [apply sqrt_lt_R0; auto|lra]. }
  unfold eqb0. destruct (Req_EM_T (sqrt Q / (10 * n)) 0) as [E|_]; [lra|].
  eexists. split; [reflexivity|]. split; [exact Ht|].
  rewrite sumsq_shift. fold Q m. unfold Rdiv at 1. rewrite <- Rmult_assoc.
  apply Rmult_le_compat_r; [apply Rlt_le, Rinv_0_lt_compat; lra|].
  rewrite <- sqrt_mult_alt by lra. apply sqrt_le_1_alt.
  replace (INR (length heights) * ((Q - 2 * (m / INR (length heights)) * m + INR (length heights) * (m / INR (length heights)) ^ 2) / INR (length heights)))
    with (Q - m ^ 2 / INR (length heights)) by (field; lra).
  assert (0 <= m ^ 2 / INR (length heights)); [|lra].
  apply Rmult_le_pos; [apply pow2_ge_0|apply Rlt_le, Rinv_0_lt_compat; auto].
Qed.
Lemma default_flat k n off : 0 < n -> (1 <= k)%nat ->
  default_pentol (repeat 0 k) n off =
    match off with None => Exc TypeErr | Some x => Ret (if Req_EM_T x 0 then 1 / 1000 else x / 1000) end.
Proof.
  intros Hn Hk. unfold default_pentol.
  assert (E1 : fold_right Rplus 0 (map (fun h => h ^ 2) (repeat 0 k)) = 0).
  { clear. induction k; cbn [repeat map fold_right]; [auto|]. rewrite IHk. ring. }
  assert (E2 : fold_right Rplus 0 (repeat 0 k) = 0).
  { clear. induction k; cbn [repeat map fold_right]; [auto|]. rewrite IHk. ring. }
  rewrite E1, E2, sqrt_0. unfold eqb0. unfold Rdiv. rewrite !Rmult_0_l. destruct (Req_EM_T 0 0) as [_|X]; [|lra].
  destruct off as [x|]; [|reflexivity]. rewrite Rplus_0_r.
  destruct (Req_EM_T (x * / 1000) 0) as [E|E], (Req_EM_T x 0) as [E'|E']; try reflexivity.
  - exfalso. lra.
  - exfalso. subst x. lra.
Qed.
