(** Homomorphism theorem: a run of the solver model over one scalar type maps to
    the run over another one.  Used with [Q2R] to execute witnesses. *)
From Coq Require Import List Bool Arith FunctionalExtensionality.
From Verif Require Import CCG_Model.
Import ListNotations.

Section Hom.
  Context {F1 F2 P : Type}.
  Variable K1 : Ops F1 P.
  Variable K2 : Ops F2 P.
  Variable phi : F1 -> F2.
  Definition lift (f : P -> F1) : P -> F2 := fun p => phi (f p).

  Record is_hom : Prop := {
    hom0 : o0 K2 = phi (o0 K1);
    hom1 : o1 K2 = phi (o1 K1);
    hadd : forall a b, oadd K2 (phi a) (phi b) = phi (oadd K1 a b);
    hsub : forall a b, osub K2 (phi a) (phi b) = phi (osub K1 a b);
    hmul : forall a b, omul K2 (phi a) (phi b) = phi (omul K1 a b);
    hopp : forall a, oopp K2 (phi a) = phi (oopp K1 a);
    hdiv : forall a b, odiv K2 (phi a) (phi b) = phi (odiv K1 a b);
    hltb : forall a b, oltb K2 (phi a) (phi b) = oltb K1 a b;
    heqb : forall a b, oeqb K2 (phi a) (phi b) = oeqb K1 a b;
    hnat : forall n, onat K2 n = phi (onat K1 n);
    hmat : forall f, mat K2 (lift f) = lift (mat K1 f) }.
  Hypothesis H : is_hom.

  Definition map_hard (h : hardness_arg F1 P) : hardness_arg F2 P :=
    match h with HScalar x => HScalar (phi x) | HArray f => HArray (lift f) end.

  Record cfg_hom (c1 : @cfg F1 P) (c2 : @cfg F2 P) : Prop := {
    ch_ranks : c_ranks c2 = c_ranks c1;
    ch_slice : c_slice c2 = c_slice c1;
    ch_masked : c_masked c2 = c_masked c1;
    ch_h : c_h c2 = lift (c_h c1);
    ch_disp : forall f, c_disp c2 (lift f) = lift (c_disp c1 f);
    ch_force : forall f, c_force c2 (lift f) = lift (c_force c1 f);
    ch_hard : c_hard c2 = option_map map_hard (c_hard c1);
    ch_ext : c_ext c2 = option_map phi (c_ext c1);
    ch_offset : c_offset c2 = phi (c_offset c1);
    ch_u0 : c_u0 c2 = option_map lift (c_u0 c1);
    ch_f0 : c_f0 c2 = option_map lift (c_f0 c1);
    ch_pentol : c_pentol c2 = phi (c_pentol c1);
    ch_forcetol : c_forcetol c2 = phi (c_forcetol c1);
    ch_thermotol : c_thermotol c2 = phi (c_thermotol c1);
    ch_mixfac : c_mixfac c2 = phi (c_mixfac c1);
    ch_mixdec : c_mixdec c2 = phi (c_mixdec c1);
    ch_minmix : c_minmix c2 = c_minmix c1;
    ch_nsurf : c_nsurf c2 = c_nsurf c1;
    ch_bisect : forall g2 g1 a b, (forall x, g2 (phi x) = phi (g1 x)) ->
      c_bisect c2 g2 (phi a) (phi b) = option_map phi (c_bisect c1 g1 a b) }.

  Variable c1 : @cfg F1 P.
  Variable c2 : @cfg F2 P.
  Hypothesis C : cfg_hom c1 c2.

  Definition map_state (s : @state F1 P) : @state F2 P :=
    mkState (lift (s_f s)) (lift (s_u s)) (lift (s_t s)) (s_delta s) (s_str s)
      (phi (s_Gold s)) (phi (s_off s)) (phi (s_tau s)) (phi (s_mixfac s)) (s_mixsteps s)
      (option_map (option_map phi) (s_lastmh s)) (option_map phi (s_lasttf s))
      (s_nit s) (s_nfev s).
  Definition map_half (h : @half F1 P) : @half F2 P :=
    mkHalf (h_c h) (lift (h_g h)) (lift (h_f h)) (lift (h_t h)) (phi (h_G h)) (phi (h_tau h))
      (phi (h_off h)) (h_str h) (phi (h_mixfac h)) (h_mixsteps h) (h_nfev h) (h_Acontact h) (h_Acg h).
  Definition map_rep (r : @report F1) : @report F2 :=
    mkReport (r_it r) (r_str r) (r_Acontact r) (r_Acg r) (phi (r_total r)) (phi (r_off r))
      (phi (r_maxpen r)) (phi (r_maxpres r)) (phi (r_padpres r)) (option_map phi (r_maxdu r)) (phi (r_tau r))
      (r_Afl r) (phi (r_ms r)) (r_nc r) (phi (r_mixfac r)).
  Definition map_full (f : @full F1 P) : @full F2 P :=
    mkFull (map_state (fu_state f)) (map_half (fu_half f)) (fu_conv f) (map_rep (fu_rep f)).
  Definition map_result (r : @sresult F1 P) : @sresult F2 P :=
    mkResult (lift (x_x r)) (lift (x_jac r)) (x_active r) (x_plastic r) (phi (x_fun r)) (phi (x_offset r))
      (x_success r) (x_message r) (x_nit r) (x_nfev r) (phi (x_maxpen r)) (phi (x_maxpres r)) (x_str r) (phi (x_tau r)).
  Definition map_ok {A B} (f : A -> B) (r : result A) : result B :=
    match r with Ok a => Ok (f a) | Raise e => Raise e end.

  Ltac funext := apply functional_extensionality; intro.
  Hint Rewrite (hom0 H) (hom1 H) (hadd H) (hsub H) (hmul H) (hopp H) (hdiv H) (hltb H) (heqb H) (hnat H) (hmat H) : hom.

  Lemma leb_hom a b : leb K2 (phi a) (phi b) = leb K1 a b.
  Proof. unfold leb. now rewrite (hltb H). Qed.
  Lemma absF_hom a : absF K2 (phi a) = phi (absF K1 a).
  Proof. unfold absF. rewrite (hom0 H), (hltb H), (hopp H). now destruct (oltb K1 _ _). Qed.
  Lemma maxF_hom a b : maxF K2 (phi a) (phi b) = phi (maxF K1 a b).
  Proof. unfold maxF. rewrite (hltb H). now destruct (oltb K1 _ _). Qed.
  Lemma minF_hom a b : minF K2 (phi a) (phi b) = phi (minF K1 a b).
  Proof. unfold minF. rewrite (hltb H). now destruct (oltb K1 _ _). Qed.
  Lemma bmul_hom b a : bmul K2 b (phi a) = phi (bmul K1 b a).
  Proof. unfold bmul. rewrite (hom0 H). now destruct b. Qed.
  Lemma rsum_hom rk f : rsum K2 rk (fun p => phi (f p)) = phi (rsum K1 rk f).
  Proof.
    assert (S : forall l, sum_list K2 (map phi l) = phi (sum_list K1 l)).
    { induction l; simpl. apply (hom0 H). unfold sum_list in *. simpl. now rewrite IHl, (hadd H). }
    unfold rsum. rewrite <- S. f_equal. rewrite map_map. apply map_ext. intros l.
    rewrite <- S, map_map. reflexivity.
  Qed.
  Lemma ropt_hom op1 op2 rk m f : (forall a b, op2 (phi a) (phi b) = phi (op1 a b)) ->
    ropt op2 rk m (fun p : P => phi (f p)) = option_map phi (ropt op1 rk m f).
  Proof.
    intros Hop.
    assert (O : forall a b, opt_op op2 (option_map phi a) (option_map phi b) = option_map phi (opt_op op1 a b)).
    { intros [a|] [b|]; simpl; auto. now rewrite Hop. }
    unfold ropt. induction rk as [|l rk IH]; simpl; auto.
    rewrite IH, <- O. f_equal. clear IH. induction (filter m l) as [|p l' IH']; cbn [fold_right]; auto.
    rewrite IH', <- O. reflexivity.
  Qed.
  Lemma rmax_hom rk m f : rmax K2 rk m (fun p => phi (f p)) = option_map phi (rmax K1 rk m f).
  Proof. apply ropt_hom, maxF_hom. Qed.
  Lemma rmin_hom rk m f : rmin K2 rk m (fun p => phi (f p)) = option_map phi (rmin K1 rk m f).
  Proof. apply ropt_hom, minF_hom. Qed.
  Lemma oltb_inf_hom o a : oltb_inf K2 (option_map phi o) (phi a) = oltb_inf K1 o a.
  Proof. destruct o; simpl; auto. apply (hltb H). Qed.
  Lemma rel_lt_hom a b t : rel_lt K2 (phi a) (phi b) (phi t) = rel_lt K1 a b t.
  Proof.
    unfold rel_lt. rewrite (hom0 H), (heqb H), (hdiv H), absF_hom, (hltb H). reflexivity.
  Qed.
  Lemma comp_hom : comp c2 = comp c1.
  Proof. unfold comp. now rewrite (ch_slice _ _ C), (ch_masked _ _ C). Qed.
  Lemma pad_hom : pad c2 = pad c1.
  Proof. unfold pad. now rewrite comp_hom. Qed.
  Lemma hval_hom h p : hval (map_hard h) p = phi (hval h p).
  Proof. destruct h; reflexivity. Qed.

  Lemma matl g2 g1 : (forall p, g2 p = phi (g1 p)) -> mat K2 g2 = lift (mat K1 g1).
  Proof. intros E. rewrite <- (hmat H). f_equal. funext. apply E. Qed.
  Lemma rsuml rk g2 g1 : (forall p, g2 p = phi (g1 p)) -> rsum K2 rk g2 = phi (rsum K1 rk g1).
  Proof. intros E. rewrite <- rsum_hom. f_equal. funext. apply E. Qed.
  Lemma rmaxl rk m g2 g1 : (forall p, g2 p = phi (g1 p)) -> rmax K2 rk m g2 = option_map phi (rmax K1 rk m g1).
  Proof. intros E. rewrite <- rmax_hom. f_equal. funext. apply E. Qed.
  Lemma rminl rk m g2 g1 : (forall p, g2 p = phi (g1 p)) -> rmin K2 rk m g2 = option_map phi (rmin K1 rk m g1).
  Proof. intros E. rewrite <- rmin_hom. f_equal. funext. apply E. Qed.

  Lemma init_hom : init_state K2 c2 = map_state (init_state K1 c1).
  Proof.
    unfold init_state.
    rewrite comp_hom, pad_hom, (ch_h _ _ C), (ch_offset _ _ C), (ch_u0 _ _ C), (ch_f0 _ _ C), (ch_mixfac _ _ C).
    set (u21 := match option_map lift (c_u0 c1) with None => fun _ => o0 K2 | Some u => u end).
    assert (E1 : u21 = lift (match c_u0 c1 with None => fun _ => o0 K1 | Some u => u end)).
    { unfold u21. destruct (c_u0 c1); simpl; auto. funext. apply (hom0 H). }
    rewrite E1. clear u21 E1. set (u1 := match c_u0 c1 with None => _ | Some u => u end).
    rewrite (matl (fun p => if comp c1 p then
        if oltb K2 (lift u1 p) (oadd K2 (lift (c_h c1) p) (phi (c_offset c1)))
        then oadd K2 (lift (c_h c1) p) (phi (c_offset c1)) else lift u1 p else lift u1 p) (fun p => if comp c1 p then
        if oltb K1 (u1 p) (oadd K1 (c_h c1 p) (c_offset c1)) then oadd K1 (c_h c1 p) (c_offset c1) else u1 p else u1 p)).
    2: { intros p. unfold lift. rewrite (hadd H), (hltb H). destruct (comp c1 p); auto. destruct (oltb K1 _ _); auto. }
    set (u2 := mat K1 (fun p => if comp c1 p then _ else _)).
    assert (E2 : match option_map lift (c_f0 c1) with None => c_force c2 (lift u2) | Some f => f end
               = lift (match c_f0 c1 with None => c_force c1 u2 | Some f => f end)).
    { destruct (c_f0 c1); simpl; auto. apply (ch_force _ _ C). }
    rewrite E2, (hmat H). clear E2. set (f1 := mat K1 (match c_f0 c1 with None => _ | Some f => f end)).
    rewrite (matl _ (fun p => if pad c1 p then o0 K1 else f1 p)).
    2: { intros p. unfold lift. destruct (pad c1 p); auto. apply (hom0 H). }
    unfold map_state. simpl. f_equal.
    - destruct (c_f0 c1); simpl; auto. now rewrite (ch_disp _ _ C), (hmat H).
    - funext. apply (hom0 H).
    - apply (hom1 H).
    - apply (hom0 H).
  Qed.

  Lemma contact_set_hom s : contact_set K2 (map_state s) = contact_set K1 s.
  Proof. funext. unfold contact_set. simpl. unfold lift. now rewrite (hom0 H), (hltb H). Qed.
  Lemma cg_set_hom s : cg_set K2 c2 (map_state s) = cg_set K1 c1 s.
  Proof.
    funext. unfold cg_set. rewrite (ch_hard _ _ C). destruct (c_hard c1) as [h|]; simpl; unfold lift.
    - now rewrite hval_hom, (hom0 H), (hopp H), !(hltb H).
    - now rewrite (hom0 H), (hltb H).
  Qed.
  Lemma do_cg_hom s : do_cg K2 c2 (map_state s) = do_cg K1 c1 s.
  Proof.
    unfold do_cg. rewrite (ch_hard _ _ C), contact_set_hom, cg_set_hom, (ch_ranks _ _ C).
    destruct (c_hard c1); reflexivity.
  Qed.

  Lemma cg_half_hom s : cg_half K2 c2 (map_state s) = map_half (cg_half K1 c1 s).
  Proof.
    unfold cg_half. rewrite contact_set_hom, cg_set_hom, (ch_ranks _ _ C), comp_hom, (ch_h _ _ C),
      (ch_ext _ _ C), (ch_mixfac _ _ C). cbn [map_state s_u s_f s_t s_off s_str s_delta s_Gold s_mixsteps s_nfev].
    set (rk := c_ranks c1). set (cr := cg_set K1 c1 s). set (Acg := rcount rk cr).
    rewrite (matl (fun p => osub K2 (lift (s_u s) p) (lift (c_h c1) p)) (fun p => osub K1 (s_u s p) (c_h c1 p))) by (intros p; unfold lift; apply (hsub H)).
    set (g0 := mat K1 (fun p => osub K1 _ _)).
    set (off2 := match option_map phi (c_ext c1) with None => _ | Some _ => _ end).
    set (off1 := match c_ext c1 with None => s_off s | Some _ => _ end).
    assert (Eo : off2 = phi off1).
    { unfold off1, off2. destruct (c_ext c1); simpl; auto. destruct (Nat.ltb O Acg); [|apply (hom0 H)].
      rewrite (rsuml _ _ (fun p => bmul K1 (comp c1 p && cr p) (g0 p))) by (intros p; apply bmul_hom).
      now rewrite (hnat H), (hdiv H). }
    rewrite Eo. clearbody off1. clear off2 Eo.
    rewrite (matl (fun p => osub K2 (lift g0 p) (phi off1)) (fun p => osub K1 (g0 p) off1)) by (intros p; unfold lift; apply (hsub H)).
    set (g := mat K1 (fun p => osub K1 (g0 p) off1)).
    rewrite (rsuml _ (fun p => bmul K2 (comp c1 p) (bmul K2 (cr p) (omul K2 (lift g p) (lift g p))))
       (fun p => bmul K1 (comp c1 p) (bmul K1 (cr p) (omul K1 (g p) (g p)))))
      by (intros p; unfold lift; now rewrite (hmul H), !bmul_hom).
    set (G := rsum K1 rk (fun p => bmul K1 (comp c1 p) (bmul K1 (cr p) (omul K1 (g p) (g p))))).
    rewrite (matl (fun p => if comp c1 p then bmul K2 (cr p)
          (if s_delta s && oltb K2 (o0 K2) (phi (s_Gold s))
           then oadd K2 (lift g p) (omul K2 (odiv K2 (phi G) (phi (s_Gold s))) (lift (s_t s) p)) else lift g p)
          else lift (s_t s) p) (fun p => if comp c1 p then bmul K1 (cr p)
          (if s_delta s && oltb K1 (o0 K1) (s_Gold s)
           then oadd K1 (g p) (omul K1 (odiv K1 G (s_Gold s)) (s_t s p)) else g p) else s_t s p)).
    2: { intros p. unfold lift. rewrite (hom0 H), (hltb H), (hdiv H), (hmul H), (hadd H).
         destruct (comp c1 p); auto. rewrite <- bmul_hom. destruct (s_delta s && _); auto. }
    set (t := mat K1 (fun p => if comp c1 p then _ else _)).
    rewrite (ch_disp _ _ C), (hmat H). set (r := mat K1 (c_disp c1 t)).
    rewrite (rsuml _ (fun p => bmul K2 (cr p) (omul K2 (lift r p) (lift t p)))
       (fun p => bmul K1 (cr p) (omul K1 (r p) (t p))))
      by (intros p; unfold lift; now rewrite (hmul H), !bmul_hom).
    rewrite (hopp H), (hom0 H), (hltb H).
    set (x := oopp K1 _).
    rewrite (rsuml _ (fun p => bmul K2 (comp c1 p) (bmul K2 (cr p) (omul K2 (lift g p) (lift t p))))
       (fun p => bmul K1 (comp c1 p) (bmul K1 (cr p) (omul K1 (g p) (t p)))))
      by (intros p; unfold lift; now rewrite (hmul H), !bmul_hom).
    rewrite (hdiv H).
    set (tau := odiv K1 _ x).
    assert (Et : (if Nat.ltb O Acg then if oltb K1 (o0 K1) x then phi tau else phi (o0 K1) else phi (o0 K1))
       = phi (if Nat.ltb O Acg then if oltb K1 (o0 K1) x then tau else o0 K1 else o0 K1)).
    { destruct (Nat.ltb O Acg); auto. destruct (oltb K1 _ x); auto. }
    rewrite Et. clear Et. set (tau' := if Nat.ltb O Acg then if oltb K1 (o0 K1) x then tau else o0 K1 else o0 K1).
    rewrite (matl (fun p => oadd K2 (lift (s_f s) p) (bmul K2 (cr p) (omul K2 (phi tau') (lift t p)))) (fun p => oadd K1 (s_f s p) (bmul K1 (cr p) (omul K1 tau' (t p)))))
      by (intros p; unfold lift; now rewrite (hmul H), bmul_hom, (hadd H)).
    unfold map_half. cbn [h_c h_g h_f h_t h_G h_tau h_off h_str h_mixfac h_mixsteps h_nfev h_Acontact h_Acg].
    f_equal. destruct (Nat.ltb O Acg); auto. destruct (oltb K1 _ x); auto.
  Qed.

  Lemma mix_half_hom hd s : mix_half K2 c2 (map_hard hd) (map_state s) = map_ok map_half (mix_half K1 c1 hd s).
  Proof.
    unfold mix_half. rewrite contact_set_hom, cg_set_hom, (ch_ranks _ _ C), comp_hom, (ch_h _ _ C),
      (ch_ext _ _ C), (ch_mixdec _ _ C), (ch_minmix _ _ C).
    cbn [map_state s_u s_f s_t s_off s_str s_tau s_mixfac s_mixsteps s_nfev].
    set (rk := c_ranks c1).
    rewrite (matl (fun p => osub K2 (lift (s_u s) p) (lift (c_h c1) p)) (fun p => osub K1 (s_u s p) (c_h c1 p))) by (intros p; unfold lift; apply (hsub H)).
    set (g0 := mat K1 (fun p => osub K1 _ _)).
    set (off2 := match option_map phi (c_ext c1) with None => _ | Some _ => _ end).
    set (off1 := match c_ext c1 with None => Ok (s_off s) | Some _ => _ end).
    assert (Eo : off2 = map_ok phi off1).
    { unfold off1, off2. destruct (c_ext c1) as [Fx|]; simpl; auto. destruct hd as [Hs|Ha]; simpl; auto.
      rewrite (rmaxl _ _ _ g0), (rminl _ _ _ g0) by reflexivity.
      destruct (rmax K1 rk (comp c1) g0) as [a|]; simpl; auto.
      destruct (rmin K1 rk (comp c1) g0) as [b|]; simpl; auto.
      rewrite (ch_bisect _ _ C _ (fun x => osub K1 (omul K1 (onat K1 (rcount rk
          (fun p => comp c1 p && oltb K1 (osub K1 (g0 p) x) (o0 K1)))) Hs) Fx)).
      - destruct (c_bisect c1 _ a b); reflexivity.
      - intros x. rewrite <- (hsub H), <- (hmul H), (hnat H). do 4 f_equal.
        f_equal. funext. unfold lift. now rewrite (hsub H), (hom0 H), (hltb H). }
    rewrite Eo. clearbody off1. clear off2 Eo. destruct off1 as [off|e]; simpl; auto. f_equal.
    rewrite (matl (fun p => osub K2 (lift g0 p) (phi off)) (fun p => osub K1 (g0 p) off)) by (intros p; unfold lift; apply (hsub H)).
    set (g := mat K1 (fun p => osub K1 (g0 p) off)).
    assert (Ecr : (fun p => if comp c1 p then oltb K2 (lift g p) (o0 K2) else cg_set K1 c1 s p)
        = (fun p => if comp c1 p then oltb K1 (g p) (o0 K1) else cg_set K1 c1 s p)).
    { funext. unfold lift. now rewrite (hom0 H), (hltb H). }
    rewrite Ecr.
    unfold map_half. cbn [h_c h_g h_f h_t h_G h_tau h_off h_str h_mixfac h_mixsteps h_nfev h_Acontact h_Acg].
    f_equal.
    - apply matl. intros p. unfold lift. rewrite hval_hom, (hom1 H), (hsub H), bmul_hom, !(hmul H), (hsub H).
      do 4 f_equal. rewrite (hom0 H), (hltb H). reflexivity.
    - apply (hom0 H).
    - apply (hmul H).
  Qed.

  Lemma first_half_hom s : first_half K2 c2 (map_state s) = map_ok map_half (first_half K1 c1 s).
  Proof.
    unfold first_half. rewrite (ch_hard _ _ C), do_cg_hom, cg_half_hom.
    destruct (c_hard c1) as [hd|]; simpl; auto. destruct (do_cg K1 c1 s); auto. apply mix_half_hom.
  Qed.

  Lemma mask_tensile_hom h : mask_tensile K2 (map_half h) = mask_tensile K1 h.
  Proof. funext. unfold mask_tensile. simpl. unfold lift. now rewrite (hom0 H), leb_hom. Qed.
  Lemma mask_flowing_hom h : mask_flowing K2 c2 (map_half h) = mask_flowing K1 c1 h.
  Proof.
    funext. unfold mask_flowing. rewrite (ch_hard _ _ C). destruct (c_hard c1); simpl; auto.
    unfold lift. now rewrite hval_hom, (hopp H), leb_hom.
  Qed.
  Lemma nc_set_hom h : nc_set K2 c2 (map_half h) = nc_set K1 c1 h.
  Proof.
    funext. unfold nc_set. rewrite mask_tensile_hom, mask_flowing_hom, comp_hom. simpl. unfold lift.
    now rewrite (hom0 H), !(hltb H).
  Qed.
  Lemma any_nc_hom h : any_nc K2 c2 (map_half h) = any_nc K1 c1 h.
  Proof. unfold any_nc. now rewrite nc_set_hom, (ch_ranks _ _ C). Qed.
  Lemma pad_pres_hom h : pad_pres K2 c2 (map_half h) = phi (pad_pres K1 c1 h).
  Proof.
    unfold pad_pres. rewrite pad_hom, (ch_ranks _ _ C).
    rewrite (rmaxl _ _ _ (fun p => absF K1 (h_f h p))) by (intros p; apply absF_hom).
    destruct (Nat.ltb _ _); [|apply (hom0 H)]. destruct (rmax K1 _ _ _); simpl; auto. apply (hom0 H).
  Qed.
  Lemma max_pres_hom h : max_pres K2 c2 (map_half h) = map_ok phi (max_pres K1 c1 h).
  Proof.
    unfold max_pres. rewrite mask_tensile_hom, mask_flowing_hom, (ch_ranks _ _ C), (ch_hard _ _ C).
    rewrite (rmaxl _ _ _ (h_f h)) by reflexivity.
    set (m2 := if Nat.ltb O (rcount (c_ranks c1) (mask_tensile K1 h)) then _ else o0 K2).
    set (m1 := if Nat.ltb O (rcount (c_ranks c1) (mask_tensile K1 h)) then _ else o0 K1).
    assert (E : m2 = phi m1).
    { unfold m1, m2. destruct (Nat.ltb _ _); [|apply (hom0 H)]. destruct (rmax K1 _ _ _); simpl; auto. apply (hom0 H). }
    rewrite E. clear E. clearbody m1. clear m2. destruct (c_hard c1) as [[Hs|Ha]|]; simpl; auto.
    rewrite (hom0 H), (heqb H). destruct (oeqb K1 Hs (o0 K1)); auto.
    rewrite (rminl _ _ _ (fun p => oadd K1 (h_f h p) Hs)) by (intros p; apply (hadd H)).
    destruct (Nat.ltb _ _); auto. destruct (rmin K1 _ _ _); simpl; auto. now rewrite (hopp H), maxF_hom.
  Qed.
  Lemma clip_tensile_hom h : clip_tensile K2 (map_half h) = lift (clip_tensile K1 h).
  Proof.
    unfold clip_tensile. apply matl. intros p. rewrite mask_tensile_hom. simpl. unfold lift.
    destruct (mask_tensile K1 h p); auto. apply (hom0 H).
  Qed.
  Lemma adjust_hom f : adjust_force K2 c2 (lift f) = lift (adjust_force K1 c1 f).
  Proof.
    unfold adjust_force. rewrite (ch_ext _ _ C). destruct (c_ext c1) as [Fx|]; simpl; auto.
    rewrite (ch_ranks _ _ C), comp_hom, pad_hom, (ch_nsurf _ _ C).
    rewrite (rsuml _ _ (fun p => bmul K1 (comp c1 p) (f p))) by (intros p; apply bmul_hom).
    rewrite (hopp H), (hom0 H), (heqb H). apply matl. intros p. destruct (oeqb K1 _ _).
    - rewrite (hnat H), (hopp H), (hdiv H). destruct (pad c1 p); auto.
    - unfold lift. now rewrite (hdiv H), (hmul H).
  Qed.
  Lemma clip_flow_hom h f : clip_flow K2 c2 (map_half h) (lift f) = lift (clip_flow K1 c1 h f).
  Proof.
    unfold clip_flow. rewrite mask_flowing_hom, (ch_hard _ _ C). destruct (c_hard c1); simpl; auto.
    apply matl. intros p. rewrite hval_hom, (hopp H). now destruct (mask_flowing K1 c1 h p).
  Qed.
  Lemma new_force_hom h : new_force K2 c2 (map_half h) = lift (new_force K1 c1 h).
  Proof.
    unfold new_force. rewrite clip_tensile_hom, adjust_hom, clip_flow_hom, any_nc_hom, nc_set_hom, comp_hom.
    simpl. destruct (is_mix (h_str h)); auto. destruct (any_nc K1 c1 h); auto.
    apply matl. intros p. unfold lift. rewrite bmul_hom, (hmul H), (hadd H). now destruct (comp c1 p).
  Qed.

  Lemma second_half_hom s h : second_half K2 c2 (map_state s) (map_half h) = map_ok map_full (second_half K1 c1 s h).
  Proof.
    unfold second_half. rewrite max_pres_hom, new_force_hom, pad_pres_hom, (ch_ranks _ _ C), (ch_disp _ _ C), (hmat H),
      comp_hom, (ch_h _ _ C), (ch_pentol _ _ C), (ch_forcetol _ _ C), (ch_thermotol _ _ C), (ch_ext _ _ C).
    destruct (max_pres K1 c1 h) as [mp|e]; simpl; auto. f_equal.
    set (f := new_force K1 c1 h). set (u := mat K1 (c_disp c1 f)). set (rk := c_ranks c1).
    rewrite (rmaxl _ (fun _ => true) _ (fun p => absF K1 (osub K1 (u p) (s_u s p))))
      by (intros p; unfold lift; now rewrite (hsub H), absF_hom).
    rewrite (rsuml _ (fun p => bmul K2 (comp c1 p) (lift f p)) (fun p => bmul K1 (comp c1 p) (f p)))
      by (intros p; apply bmul_hom).
    rewrite (rmaxl _ (comp c1) (fun p => bmul K2 (h_c h p) _)
        (fun p => bmul K1 (h_c h p) (osub K1 (oadd K1 (c_h c1 p) (h_off h)) (u p))))
      by (intros p; unfold lift; now rewrite (hadd H), (hsub H), bmul_hom).
    rewrite (rmaxl _ (comp c1) (lift (c_h c1)) (c_h c1)) by reflexivity.
    assert (EG : new_G K2 (map_half h) = phi (new_G K1 h)).
    { unfold new_G. simpl. destruct (is_mix (h_str h)); auto. apply (hom0 H). }
    rewrite EG, (hopp H). set (tot := oopp K1 _).
    set (mpen2 := match option_map phi (rmax K1 rk (comp c1) (fun p => bmul K1 _ _)) with None => _ | Some _ => _ end).
    set (mpen1 := match rmax K1 rk (comp c1) (fun p => bmul K1 _ _) with None => o0 K1 | Some _ => _ end).
    assert (E1 : mpen2 = phi mpen1).
    { unfold mpen1, mpen2. destruct (rmax K1 _ _ _); simpl; [|apply (hom0 H)]. now rewrite (hom0 H), maxF_hom. }
    rewrite E1. clear E1. clearbody mpen1. clear mpen2.
    set (mh2 := match option_map phi (rmax K1 rk (comp c1) (c_h c1)) with None => None | Some x => Some (oadd K2 x (phi (h_off h))) end).
    set (mh1 := match rmax K1 rk (comp c1) (c_h c1) with None => None | Some x => Some (oadd K1 x (h_off h)) end).
    assert (E2 : mh2 = option_map phi mh1).
    { unfold mh1, mh2. destruct (rmax K1 _ _ _); simpl; auto. now rewrite (hadd H). }
    rewrite E2. clear E2. clearbody mh1. clear mh2.
    unfold map_full. cbn [fu_state fu_half fu_conv fu_rep]. f_equal.
    - unfold map_state; simpl. f_equal; unfold new_delta, new_str; rewrite any_nc_hom; reflexivity.
    - f_equal; [f_equal|].
      + destruct (c_ext c1) as [Fx|]; simpl.
        * rewrite (hsub H). apply rel_lt_hom.
        * destruct (s_lasttf s); simpl; auto. rewrite (hsub H). apply rel_lt_hom.
      + destruct (c_ext c1) as [Fx|]; simpl; auto. destruct (s_lastmh s) as [[y|]|]; simpl; auto.
        * destruct mh1; simpl; auto. rewrite (hsub H). apply rel_lt_hom.
        * destruct mh1; simpl; auto.
      + rewrite !oltb_inf_hom, (hom0 H), !(hmul H), (hnat H), (hdiv H), !(hltb H).
        destruct (Nat.ltb O (h_Acg h)); rewrite (hltb H); reflexivity.
    - unfold map_rep. simpl. rewrite mask_flowing_hom, nc_set_hom. f_equal.
      + unfold new_str. rewrite any_nc_hom. reflexivity.
      + rewrite (hnat H), (hdiv H). now destruct (Nat.ltb O (h_Acg h)).
  Qed.

  Lemma iter_hom s : iter K2 c2 (map_state s) = map_ok map_full (iter K1 c1 s).
  Proof.
    unfold iter. rewrite first_half_hom. destruct (first_half K1 c1 s); simpl; auto. apply second_half_hom.
  Qed.

  Lemma energy_hom s : energy K2 c2 (map_state s) = phi (energy K1 c1 s).
  Proof.
    unfold energy. rewrite (ch_ranks _ _ C), (ch_slice _ _ C).
    rewrite (rsuml _ _ (fun p => bmul K1 (c_slice c1 p) (omul K1 (s_f s p) (s_u s p))))
      by (intros p; simpl; unfold lift; now rewrite (hmul H), bmul_hom).
    now rewrite (hom1 H), (hadd H), (hopp H), (hdiv H).
  Qed.
  Lemma oppl f : (fun p => oopp K2 (lift f p)) = lift (fun p => oopp K1 (f p)).
  Proof. funext. unfold lift. apply (hopp H). Qed.

  Lemma converged_hom fu : converged_result K2 c2 (map_full fu) = map_result (converged_result K1 c1 fu).
  Proof.
    unfold converged_result. cbn [map_full fu_state fu_half fu_rep].
    rewrite energy_hom, comp_hom, (ch_hard _ _ C).
    unfold map_result. simpl. f_equal.
    - apply oppl.
    - destruct (is_mix (s_str (fu_state fu))); auto. funext. unfold lift. now rewrite (hom0 H), (hltb H).
    - destruct (c_hard c1); simpl; auto. f_equal. funext. unfold lift. now rewrite (hom0 H), (hltb H).
  Qed.
  Lemma failed_hom n fu : failed_result K2 c2 n (map_full fu) = map_result (failed_result K1 c1 n fu).
  Proof.
    unfold failed_result. cbn [map_full fu_state fu_half fu_rep].
    rewrite energy_hom. unfold map_result. simpl. f_equal. apply oppl.
  Qed.

  Lemma loop_hom n : forall fuel s last,
    snd (loop K2 c2 n fuel (map_state s) (option_map map_full last)) =
    map_ok map_result (snd (loop K1 c1 n fuel s last)).
  Proof.
    induction fuel; intros s last; simpl.
    - destruct last; simpl; auto. now rewrite failed_hom.
    - rewrite iter_hom. destruct (iter K1 c1 s) as [fu|e]; simpl; auto.
      destruct (fu_conv fu); simpl; [now rewrite converged_hom|].
      specialize (IHfuel (fu_state fu) (Some fu)). simpl in IHfuel.
      destruct (loop K2 c2 n fuel (map_state (fu_state fu)) (Some (map_full fu))).
      destruct (loop K1 c1 n fuel (fu_state fu) (Some fu)). simpl in *. auto.
  Qed.

  Theorem run_hom n : run K2 c2 n = map_ok map_result (run K1 c1 n).
  Proof. unfold run, run_trace. rewrite init_hom. apply (loop_hom n n _ None). Qed.
End Hom.
