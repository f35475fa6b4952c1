(** * The two models of the contact solver agree in exact arithmetic *)
From Coq Require Import Reals Lra Lia List Bool Arith FunctionalExtensionality.
From Verif Require Import CCG_Model CCG_Real CCG_Spec Float_Model FloatExact_Spec.
From Coq Require Import List.
Import ListNotations.
Local Open Scope R_scope.

Section Agree.
  Context {P : Type}.
  Notation K := (ROps P).
  Notation X := XArith.
  Variable c : @cfg R P.
  Variable k : @fcfg (option R) P.
  Hypothesis SP : same_problem c k.
  Hypothesis CN : exists p, In p (k_pts k) /\ fcomp k p = true.
  Hypothesis NS : (0 < c_nsurf c)%nat.
  Notation pts := (k_pts k).

  Lemma comp_eq : fcomp k = comp c.
  Proof. extensionality p. unfold fcomp, comp. rewrite (sp_slice _ _ SP), (sp_masked _ _ SP). reflexivity. Qed.
  Lemma pad_eq : fpad k = pad c.
  Proof. extensionality p. unfold fpad, pad. rewrite comp_eq. reflexivity. Qed.

  (** ** Reductions *)
  Lemma count_eq : forall m, count k m = rcount (c_ranks c) m.
  Proof. intros m. unfold count, rcount. rewrite (sp_ranks _ _ SP). cbn. lia. Qed.
  Lemma sum_eq : forall m phi, asum X (vals k m (defined phi)) = Some (rsum K (c_ranks c) (fun p => bmul K (m p) (phi p))).
  Proof.
    intros m phi. unfold rsum. rewrite (sp_ranks _ _ SP). unfold sum_list, vals. cbn [map fold_right]. change (oadd K) with Rplus. change (o0 K) with 0. rewrite Rplus_0_r.
    change (asum X) with (fold_right (xop2 Rplus) (Some 0)).
    clear CN. induction pts as [|p l IH]; [reflexivity|]. cbn [filter map fold_right]. unfold bmul at 1. destruct (m p).
    - cbn [map fold_right]. rewrite IH. reflexivity.
    - rewrite IH. change (o0 K) with 0. rewrite Rplus_0_l. reflexivity.
  Qed.
  Lemma fold_eq : forall op m phi, xfold op (vals k m (defined phi)) = ropt op (c_ranks c) m phi.
  Proof.
    intros op m phi. unfold ropt, vals. rewrite (sp_ranks _ _ SP). cbn [map fold_right].
    assert (E : forall l, xfold op (map (defined phi) l) = fold_right (fun p : P => opt_op op (Some (phi p))) None l
      /\ (l <> [] -> xfold op (map (defined phi) l) <> None)).
    { induction l as [|p l [IH IN]]; [split; [reflexivity|contradiction]|]. cbn [map fold_right]. rewrite <- IH. destruct l as [|q l]; [split; [reflexivity|discriminate]|].
      change (xfold op (defined phi p :: map (defined phi) (q :: l))) with (xop2 op (defined phi p) (xfold op (map (defined phi) (q :: l)))).
      destruct (xfold op (map (defined phi) (q :: l))) as [v|]; [split; [reflexivity|discriminate]|]. exfalso. apply IN; [discriminate|reflexivity]. }
    rewrite (proj1 (E _)). destruct (fold_right _ _ _); reflexivity.
  Qed.
  Lemma maxF_eq : maxF K = Rmax.
  Proof.
    extensionality x. extensionality y. unfold maxF. change (oltb K x y) with (Rltb x y). unfold Rltb.
    destruct (Rlt_dec x y); [rewrite Rmax_right|rewrite Rmax_left]; lra.
  Qed.
  Lemma minF_eq : minF K = Rmin.
  Proof.
    extensionality x. extensionality y. unfold minF. change (oltb K y x) with (Rltb y x). unfold Rltb.
    destruct (Rlt_dec y x); [rewrite Rmin_right|rewrite Rmin_left]; lra.
  Qed.
  Lemma max_eq : forall m phi, amax X (vals k m (defined phi)) = rmax K (c_ranks c) m phi.
  Proof. intros. unfold rmax. rewrite maxF_eq. apply fold_eq. Qed.
  Lemma min_eq : forall m phi, amin X (vals k m (defined phi)) = rmin K (c_ranks c) m phi.
  Proof. intros. unfold rmin. rewrite minF_eq. apply fold_eq. Qed.
  Lemma max_some : forall m phi, (exists p, In p pts /\ m p = true) -> exists x, rmax K (c_ranks c) m phi = Some x.
  Proof.
    intros m phi (p & I & M). unfold rmax, ropt. rewrite (sp_ranks _ _ SP). cbn [map fold_right].
    assert (J : In p (filter m pts)) by (apply filter_In; auto). destruct (filter m pts) as [|q l]; [destruct J|].
    cbn [fold_right]. destruct (fold_right (fun p0 : P => opt_op (maxF K) (Some (phi p0))) None l); cbn; eexists; reflexivity.
  Qed.
  Lemma min_some : forall m phi, (exists p, In p pts /\ m p = true) -> exists x, rmin K (c_ranks c) m phi = Some x.
  Proof.
    intros m phi (p & I & M). unfold rmin, ropt. rewrite (sp_ranks _ _ SP). cbn [map fold_right].
    assert (J : In p (filter m pts)) by (apply filter_In; auto). destruct (filter m pts) as [|q l]; [destruct J|].
    cbn [fold_right]. destruct (fold_right (fun p0 : P => opt_op (minF K) (Some (phi p0))) None l); cbn; eexists; reflexivity.
  Qed.
  Lemma count_some : forall m, Nat.ltb 0 (rcount (c_ranks c) m) = true -> exists p, In p pts /\ m p = true.
  Proof.
    intros m H. rewrite <- count_eq in H. unfold count in H. apply Nat.ltb_lt in H.
    destruct (filter m pts) as [|q l] eqn:E; [cbn in H; lia|]. exists q. apply filter_In. rewrite E. left. reflexivity.
  Qed.
  Lemma nat_pos : forall n, Nat.ltb 0 n = true -> INR n <> 0.
  Proof. intros n H. apply Nat.ltb_lt in H. apply not_0_INR. lia. Qed.
  Lemma div_some : forall x y, y <> 0 -> xdiv (Some x) (Some y) = Some (x / y).
  Proof. intros x y N. cbn. destruct (Req_EM_T y 0); [contradiction|reflexivity]. Qed.

  (** ** States *)
  Definition same_state (s : @state R P) : @fstate (option R) P :=
    mkFstate (defined (s_f s)) (defined (s_u s)) (defined (s_t s)) (s_delta s) (same_status (s_str s)) (Some (s_Gold s))
      (Some (s_off s)) (Some (s_tau s)) (Some (s_mixfac s)) (s_mixsteps s) (s_lastmh s) (option_map Some (s_lasttf s))
      (s_nit s) (s_nfev s).
  Definition same_half (h : @half R P) : @fhalf (option R) P :=
    mkFhalf (h_c h) (defined (h_g h)) (defined (h_f h)) (defined (h_t h)) (Some (h_G h)) (Some (h_tau h)) (Some (h_off h))
      (same_status (h_str h)) (Some (h_mixfac h)) (h_mixsteps h) (h_nfev h) (h_Acg h).

  Lemma start_eq : fstart X k = same_state (init_state K c).
  Proof.
    unfold fstart, init_state, same_state. cbv zeta. cbn [mat ROps s_f s_u s_t s_delta s_str s_Gold s_off s_tau s_mixfac s_mixsteps s_lastmh s_lasttf s_nit s_nfev same_status option_map].
    rewrite (sp_u0 _ _ SP), (sp_f0 _ _ SP), (sp_offset _ _ SP), (sp_mixfac _ _ SP), comp_eq, pad_eq, (sp_h _ _ SP).
    set (u := match c_u0 c with None => fun _ => o0 K | Some u => u end).
    set (u2 := fun p : P => if comp c p then if oltb K (u p) (oadd K (c_h c p) (c_offset c)) then oadd K (c_h c p) (c_offset c) else u p else u p).
    match goal with |- mkFstate (fun p => if _ then _ else match _ with None => k_force k ?w | Some f => f end p) _ _ _ _ _ _ _ _ _ _ _ _ _ = _ => replace w with (defined u2) end.
    2: { extensionality p. unfold defined at 1, u2, u. destruct (c_u0 c) as [u'|]; cbn [option_map]; destruct (comp c p); try reflexivity; cbn; unfold defined; cbn; (destruct (Rltb _ _); reflexivity). }
    rewrite (sp_force _ _ SP). f_equal.
    - extensionality p. unfold defined. destruct (pad c p); [reflexivity|]. destruct (c_f0 c); reflexivity.
    - destruct (c_f0 c) as [f|]; cbn [option_map]; [apply (sp_disp _ _ SP)|reflexivity].
  Qed.

  (** ** First half of an iteration *)
  Lemma mix_eq : forall s, fmix (same_status s) = is_mix s.
  Proof. intros []; reflexivity. Qed.
  Lemma contact_eq : forall s, fcontact X (same_state s) = contact_set K s.
  Proof. reflexivity. Qed.
  Lemma cg_eq : forall s, fcg X k (same_state s) = cg_set K c s.
  Proof.
    intros s. extensionality p. unfold fcg, cg_set. destruct (sp_hard _ _ SP) as [[-> ->]|(H & -> & ->)]; reflexivity.
  Qed.
  Lemma do_cg_eq : forall s, fdo_cg X k (same_state s) = do_cg K c s.
  Proof.
    intros s. unfold fdo_cg, do_cg. rewrite contact_eq, cg_eq, !count_eq. change (z_mixsteps (same_state s)) with (s_mixsteps s).
    destruct (sp_hard _ _ SP) as [[-> ->]|(H & -> & ->)]; [reflexivity|].
    set (a := rcount (c_ranks c) (contact_set K s)). set (b := rcount (c_ranks c) (cg_set K c s)).
    destruct (Nat.ltb 0 a) eqn:A; [|reflexivity]. cbn [andb]. f_equal.
    cbn [adiv anat acent alt XArith]. rewrite div_some by (apply nat_pos, A). cbn [xtest].
    apply Nat.ltb_lt in A. pose proof (lt_0_INR a A) as AP. destruct (Nat.ltb_spec a (100 * b)) as [L|L].
    - apply Rltb_true. apply lt_INR in L. rewrite mult_INR in L. replace (INR 100) with 100 in L by (cbn; lra).
      apply Rmult_lt_reg_r with (INR a); [exact AP|]. replace (INR b / INR a * INR a) with (INR b) by (field; lra). lra.
    - apply Rltb_false. apply le_INR in L. rewrite mult_INR in L. replace (INR 100) with 100 in L by (cbn; lra).
      apply Rmult_le_reg_r with (INR a); [exact AP|]. replace (INR b / INR a * INR a) with (INR b) by (field; lra). lra.
  Qed.

  Lemma btimes_eq : forall b x, btimes X b (Some x) = Some (bmul K b x).
  Proof. intros [] x; cbn; [reflexivity|]. rewrite Rmult_0_l. reflexivity. Qed.
  Lemma bmul_l : forall b x y, bmul K b x * y = bmul K b (x * y).
  Proof. intros [] x y; unfold bmul; cbn; ring. Qed.
  Lemma bmul_and : forall a b x, bmul K a (bmul K b x) = bmul K (a && b) x.
  Proof. intros [] [] x; reflexivity. Qed.
  Lemma some_if : forall (b : bool) (x y : R), (if b then Some x else Some y) = Some (if b then x else y).
  Proof. intros []; reflexivity. Qed.

  Ltac pull x := match goal with |- ?l = ?r =>
    lazymatch l with (let y := ?a in @?b y) => pose (x := a); change (b x = r); cbv beta end end.
  Ltac known x v := let E := fresh "E" in assert (E : x = v); [unfold x|clearbody x; subst x].
  Lemma cg_half_eq : forall s, fcg_half X k (same_state s) = same_half (cg_half K c s).
  Proof.
    intros s. cbv delta [fcg_half]. cbv beta. set (w := cg_half K c s).
    pull cr. known cr (cg_set K c s); [apply cg_eq|]. set (cr := cg_set K c s).
    pull n. known n (rcount (c_ranks c) cr); [apply count_eq|]. set (n := rcount (c_ranks c) cr).
    pull str. known str (same_status (if is_mix (s_str s) then Sd else s_str s)); [change (z_str (same_state s)) with (same_status (s_str s)); rewrite mix_eq; destruct (is_mix _); reflexivity|].
    pull g0. set (g0' := fun p => s_u s p - c_h c p). known g0 (defined g0'); [rewrite (sp_h _ _ SP); reflexivity|].
    pull off.
    set (off' := match c_ext c with None => s_off s | Some _ => if Nat.ltb 0 n then rsum K (c_ranks c) (fun p => bmul K (comp c p && cr p) (g0' p)) / INR n else 0 end).
    known off (Some off').
    { rewrite (sp_ext _ _ SP). unfold off'. destruct (c_ext c) as [Fx|]; cbn [option_map]; [|reflexivity]. destruct (Nat.ltb 0 n) eqn:A; [|reflexivity].
      rewrite comp_eq, sum_eq. change (adiv X) with xdiv. apply div_some, nat_pos, A. }
    pull g. set (g' := fun p => g0' p - off'). known g (defined g'); [reflexivity|].
    pull G. set (G' := rsum K (c_ranks c) (fun p => bmul K (comp c p) (bmul K (cr p) (g' p * g' p)))).
    known G (Some G').
    { unfold G'. rewrite <- (sum_eq (comp c) (fun p => bmul K (cr p) (g' p * g' p))), comp_eq. f_equal. f_equal. extensionality p.
      unfold defined. rewrite btimes_eq. cbn [amul XArith xop2]. f_equal. apply bmul_l. }
    pull t. set (t' := fun p : P => if comp c p then bmul K (cr p) (if s_delta s && Rltb 0 (s_Gold s) then g' p + G' / s_Gold s * s_t s p else g' p) else s_t s p).
    known t (defined t').
    { extensionality p. rewrite comp_eq. unfold defined at 3, t'. destruct (comp c p); [|reflexivity].
      change (alt X (a0 X) (z_Gold (same_state s))) with (Rltb 0 (s_Gold s)). change (z_delta (same_state s)) with (s_delta s).
      destruct (s_delta s && Rltb 0 (s_Gold s)) eqn:D; [|apply btimes_eq].
      apply andb_true_iff in D. destruct D as [_ D]. apply Rltb_true in D. change (adiv X) with xdiv. change (z_Gold (same_state s)) with (Some (s_Gold s)).
      rewrite div_some by lra. rewrite <- btimes_eq. f_equal. cbn [amul aadd a1 XArith xop2 defined z_t same_state]. rewrite Rmult_1_l. reflexivity. }
    pull r. known r (defined (c_disp c t')); [apply (sp_disp _ _ SP)|]. set (r' := c_disp c t').
    pull x. set (x' := - rsum K (c_ranks c) (fun p => bmul K (cr p) (r' p * t' p))). known x (Some x').
    { replace (fun p : P => amul X (btimes X (cr p) (defined r' p)) (defined t' p)) with (defined (fun p => bmul K (cr p) (r' p * t' p))).
      - rewrite sum_eq. reflexivity.
      - extensionality p. unfold defined. rewrite btimes_eq. cbn [amul XArith xop2]. f_equal. symmetry. apply bmul_l. }
    pull curved. pull tau. set (num := rsum K (c_ranks c) (fun p => bmul K (comp c p) (bmul K (cr p) (g' p * t' p)))).
    set (tau' := if Nat.ltb 0 n then if Rltb 0 x' then num / x' else 0 else 0).
    known tau (Some tau').
    { unfold tau', curved. change (alt X (a0 X) (Some x')) with (Rltb 0 x'). destruct (Nat.ltb 0 n); [|reflexivity]. cbn [andb]. destruct (Rltb 0 x') eqn:Q; [|reflexivity].
      apply Rltb_true in Q.
      replace (fun p : P => amul X (btimes X (cr p) (defined g' p)) (defined t' p)) with (defined (fun p => bmul K (cr p) (g' p * t' p))).
      - rewrite comp_eq, sum_eq. change (adiv X) with xdiv. apply div_some. lra.
      - extensionality p. unfold defined. rewrite btimes_eq. cbn [amul XArith xop2]. f_equal. symmetry. apply bmul_l. }
    clear curved.
    pull G1. known G1 (Some (if Nat.ltb 0 n then if Rltb 0 x' then G' else 0 else G')).
    { change (alt X (a0 X) (Some x')) with (Rltb 0 x'). destruct (Nat.ltb 0 n); [|reflexivity]. cbn [andb]. destruct (Rltb 0 x'); reflexivity. }
    pull fo. known fo (defined (fun p => s_f s p + bmul K (cr p) (tau' * t' p))).
    { extensionality p. unfold defined. rewrite btimes_eq. cbn [amul aadd XArith xop2]. change (z_f (same_state s) p) with (Some (s_f s p)). cbn [xop2]. f_equal. rewrite bmul_l. reflexivity. }
    rewrite (sp_mixfac _ _ SP). reflexivity.
  Qed.

  Definition same_first (r : result (@half R P)) : @fhalf (option R) P + fexn :=
    match r with Ok h => inl (same_half h) | Raise _ => inr BisectError end.
  Lemma mix_half_eq : forall H s, c_hard c = Some (HScalar H) ->
    fmix_half X k (Some H) (same_state s) = same_first (mix_half K c (HScalar H) s).
  Proof.
    intros H s HD. cbv delta [fmix_half]. cbv beta.
    pull cr0. known cr0 (cg_set K c s); [apply cg_eq|]. set (cr0 := cg_set K c s).
    pull ms. set (ms' := if is_mix (s_str s) then s_mixsteps s else c_minmix c). known ms ms'.
    { change (z_str (same_state s)) with (same_status (s_str s)). rewrite mix_eq, (sp_minmix _ _ SP). reflexivity. }
    pull g0. set (g0' := fun p => s_u s p - c_h c p). known g0 (defined g0'); [rewrite (sp_h _ _ SP); reflexivity|].
    pull off. unfold mix_half. cbv zeta. fold cr0 ms'. cbn [mat ROps].
    change (fun p : P => osub K (s_u s p) (c_h c p)) with g0'.
    destruct CN as (p0 & I0 & C0). rewrite comp_eq in C0.
    destruct (max_some (comp c) g0') as (a & A); [exists p0; auto|]. destruct (min_some (comp c) g0') as (b & B); [exists p0; auto|].
    rewrite A, B.
    assert (REST : forall o, same_first (Ok (mkHalf (fun p => if comp c p then oltb K (osub K (g0' p) o) (o0 K) else cr0 p) (fun p => osub K (g0' p) o)
        (fun p => osub K (omul K (osub K (o1 K) (s_mixfac s)) (s_f s p)) (omul K (s_mixfac s) (bmul K (if comp c p then oltb K (osub K (g0' p) o) (o0 K) else cr0 p) H)))
        (s_t s) (o0 K) (s_tau s) o Mix (omul K (s_mixfac s) (c_mixdec c)) (Nat.pred ms') (s_nfev s) (rcount (c_ranks c) (contact_set K s)) (rcount (c_ranks c) cr0)))
      = inl (let g := fun p => asub X (defined g0' p) (Some o) in
             let cr := fun p => if fcomp k p then alt X (g p) (a0 X) else cr0 p in
             let m := z_mixfac (same_state s) in
             let fo := fun p => asub X (amul X (asub X (a1 X) m) (z_f (same_state s) p)) (btimes X (cr p) (amul X m (Some H))) in
             mkFhalf cr g fo (z_t (same_state s)) (a0 X) (z_tau (same_state s)) (Some o) FMix (amul X m (k_mixdec k)) (Nat.pred ms') (z_nfev (same_state s)) (count k cr0))).
    { intros o. cbv zeta. rewrite comp_eq, count_eq, (sp_mixdec _ _ SP). cbn [same_first]. f_equal. unfold same_half. cbn [h_c h_g h_f h_t h_G h_tau h_off h_str h_mixfac h_mixsteps h_nfev h_Acg].
      f_equal. extensionality p. change (alt X (asub X (defined g0' p) (Some o)) (a0 X)) with (oltb K (osub K (g0' p) o) (o0 K)).
      set (cp := if comp c p then _ else _). change (amul X (z_mixfac (same_state s)) (Some H)) with (Some (s_mixfac s * H)). rewrite btimes_eq.
      unfold defined. cbn [asub amul aadd a1 XArith xop2 z_mixfac z_f same_state defined osub omul o1 ROps]. f_equal. f_equal.
      change (s_mixfac s * bmul K cp H = bmul K cp (s_mixfac s * H)); destruct cp; unfold bmul; cbn; ring. }
    unfold off. rewrite (sp_ext _ _ SP). destruct (c_ext c) as [Fx|]; cbn [option_map].
    - rewrite comp_eq, max_eq, min_eq, A, B.
      rewrite (sp_bisect _ _ SP _ (fun x => INR (rcount (c_ranks c) (fun p => comp c p && oltb K (osub K (g0' p) x) (o0 K))) * H - Fx) a b).
      + change (fun x : R => osub K (omul K (onat K (rcount (c_ranks c) (fun p => comp c p && oltb K (osub K (g0' p) x) (o0 K)))) H) Fx)
          with (fun x : R => INR (rcount (c_ranks c) (fun p => comp c p && oltb K (osub K (g0' p) x) (o0 K))) * H - Fx).
        destruct (c_bisect c _ a b) as [y|]; [|reflexivity]. cbn [option_map]. rewrite REST. rewrite comp_eq. reflexivity.
      + intros x. rewrite count_eq. reflexivity.
    - rewrite REST. reflexivity.
  Qed.
  Lemma first_eq : forall s, ffirst X k (same_state s) = same_first (first_half K c s).
  Proof.
    intros s. unfold ffirst, first_half. rewrite do_cg_eq, cg_half_eq.
    destruct (sp_hard _ _ SP) as [[E ->]|(H & E & ->)]; rewrite E; [reflexivity|].
    destruct (do_cg K c s); [reflexivity|]. apply mix_half_eq, E.
  Qed.

  (** ** Second half of an iteration *)
  Lemma leb_eq : forall x y, Rleb x y = leb K x y.
  Proof.
    intros x y. unfold Rleb. destruct (Rle_dec x y) as [L|L]; symmetry; [apply leb_true; exact L|apply leb_false; lra].
  Qed.
  Lemma tensile_eq : forall h, ftensile X (same_half h) = mask_tensile K h.
  Proof. intros h. extensionality p. apply leb_eq. Qed.
  Lemma flow_eq : forall h, fflow X k (same_half h) = mask_flowing K c h.
  Proof.
    intros h. extensionality p. unfold fflow, mask_flowing. destruct (sp_hard _ _ SP) as [[-> ->]|(H & -> & ->)]; [reflexivity|]. apply leb_eq.
  Qed.
  Lemma nc_eq : forall h, fnc X k (same_half h) = nc_set K c h.
  Proof. intros h. extensionality p. unfold fnc, nc_set. rewrite comp_eq, tensile_eq, flow_eq. reflexivity. Qed.
  Lemma any_eq : forall h, fany_nc X k (same_half h) = any_nc K c h.
  Proof. intros h. unfold fany_nc, any_nc. rewrite nc_eq, count_eq. reflexivity. Qed.
  Lemma abs_eq : forall x, option_map Rabs (Some x) = Some (absF K x).
  Proof. intros x. cbn. rewrite absF_Rabs. reflexivity. Qed.
  Lemma pad_pres_eq : forall h, fpad_pres X k (same_half h) = Some (pad_pres K c h).
  Proof.
    intros h. unfold fpad_pres, pad_pres. rewrite pad_eq, count_eq. destruct (Nat.ltb 0 (rcount (c_ranks c) (pad c))) eqn:N; [|reflexivity].
    replace (fun p : P => aabs X (y_f (same_half h) p)) with (defined (fun p => absF K (h_f h p))).
    - rewrite max_eq. destruct (max_some (pad c) (fun p => absF K (h_f h p)) (count_some _ N)) as (x & ->). reflexivity.
    - extensionality p. symmetry. apply abs_eq.
  Qed.
  Lemma max_pres_eq : forall h, exists mp, max_pres K c h = Ok mp /\ fmax_pres X k (same_half h) = Some mp.
  Proof.
    intros h. unfold fmax_pres, max_pres. cbv zeta. rewrite tensile_eq, flow_eq, !count_eq. change (y_f (same_half h)) with (defined (h_f h)). rewrite max_eq.
    assert (M : exists m0, (if Nat.ltb 0 (rcount (c_ranks c) (mask_tensile K h)) then rmax K (c_ranks c) (mask_tensile K h) (h_f h) else a0 X) = Some m0
      /\ (if Nat.ltb 0 (rcount (c_ranks c) (mask_tensile K h)) then match rmax K (c_ranks c) (mask_tensile K h) (h_f h) with Some x => x | None => o0 K end else o0 K) = m0).
    { destruct (Nat.ltb 0 (rcount (c_ranks c) (mask_tensile K h))) eqn:N; [|exists 0; split; reflexivity].
      destruct (max_some (mask_tensile K h) (h_f h) (count_some _ N)) as (x & ->). exists x. split; reflexivity. }
    destruct M as (m0 & E1 & E2). rewrite E1, E2.
    destruct (sp_hard _ _ SP) as [[-> ->]|(H & -> & ->)]; [exists m0; split; reflexivity|].
    change (aeq X (Some H) (a0 X)) with (oeqb K H (o0 K)). destruct (oeqb K H (o0 K)); [exists m0; split; reflexivity|].
    destruct (Nat.ltb 0 (rcount (c_ranks c) (mask_flowing K c h))) eqn:N; [|exists m0; split; reflexivity].
    change (fun p : P => aadd X (defined (h_f h) p) (Some H)) with (defined (fun p => oadd K (h_f h p) H)). rewrite min_eq.
    destruct (min_some (mask_flowing K c h) (fun p => oadd K (h_f h p) H) (count_some _ N)) as (x & ->).
    exists (maxF K m0 (- x)). split; [reflexivity|]. unfold pymax, maxF. change (alt X (Some m0) (aopp X (Some x))) with (oltb K m0 (- x)).
    destruct (oltb K m0 (- x)); reflexivity.
  Qed.
  Lemma clip_eq : forall h, fclip X (same_half h) = defined (clip_tensile K h).
  Proof. intros h. extensionality p. unfold fclip, clip_tensile, defined. rewrite tensile_eq. cbn [mat ROps]. destruct (mask_tensile K h p); reflexivity. Qed.
  Lemma adjust_eq : forall f, fadjust X k (defined f) = defined (adjust_force K c f).
  Proof.
    intros f. unfold fadjust, adjust_force. rewrite (sp_ext _ _ SP). destruct (c_ext c) as [Fx|]; cbn [option_map]; [|reflexivity].
    rewrite comp_eq, sum_eq. set (tot := rsum K (c_ranks c) (fun p => bmul K (comp c p) (f p))). cbv zeta. cbn [mat ROps].
    change (aeq X (aopp X (Some tot)) (a0 X)) with (Reqb (- tot) 0). change (oeqb K (oopp K tot) (o0 K)) with (Reqb (- tot) 0).
    destruct (Reqb (- tot) 0) eqn:Z.
    - rewrite pad_eq, (sp_nsurf _ _ SP). extensionality p. unfold defined. destruct (pad c p); [reflexivity|].
      change (adiv X) with xdiv. apply div_some. apply not_0_INR. lia.
    - apply Reqb_false in Z. extensionality p. change (adiv X (Some Fx) (aopp X (Some tot))) with (xdiv (Some Fx) (Some (- tot))). rewrite div_some by exact Z. reflexivity.
  Qed.
  Lemma clip_flow_eq : forall h f, fclip_flow X k (same_half h) (defined f) = defined (clip_flow K c h f).
  Proof.
    intros h f. extensionality p. unfold fclip_flow, clip_flow. rewrite flow_eq.
    destruct (sp_hard _ _ SP) as [[-> ->]|(H & -> & ->)]; [reflexivity|]. unfold defined. cbn [mat ROps].
    destruct (mask_flowing K c h p); reflexivity.
  Qed.
  Lemma new_force_eq : forall h, fnew_force X k (same_half h) = defined (new_force K c h).
  Proof.
    intros h. unfold fnew_force, new_force. cbv zeta. rewrite clip_eq, adjust_eq, clip_flow_eq, any_eq, nc_eq, comp_eq.
    set (f3 := clip_flow K c h (adjust_force K c (clip_tensile K h))). change (y_str (same_half h)) with (same_status (h_str h)). rewrite mix_eq.
    destruct (is_mix (h_str h)); [reflexivity|]. destruct (any_nc K c h); [|reflexivity].
    extensionality p. unfold defined. cbn [mat ROps]. destruct (comp c p); [|reflexivity].
    change (y_tau (same_half h)) with (Some (h_tau h)). rewrite btimes_eq. change (y_g (same_half h) p) with (Some (h_g h p)).
    cbn [aadd amul XArith xop2]. f_equal. destruct (nc_set K c h p); unfold bmul; cbn; ring.
  Qed.
  Lemma rel_eq : forall num den tol, xtest Rltb (option_map Rabs (xdiv (Some num) (Some den))) (Some tol) = rel_lt K num den tol.
  Proof.
    intros num den tol. unfold rel_lt. change (oeqb K den (o0 K)) with (Reqb den 0). unfold Reqb. cbn [xdiv].
    destruct (Req_EM_T den 0); [reflexivity|]. cbn [option_map xtest]. rewrite absF_Rabs. reflexivity.
  Qed.
  Lemma rms_eq : forall x tol, Rltb (sqrt x) tol = Rltb 0 tol && Rltb x (tol * tol).
  Proof.
    intros x tol. destruct (Rltb (sqrt x) tol) eqn:E.
    - apply Rltb_true in E. pose proof (sqrt_pos x) as SQ. symmetry. apply andb_true_iff. split; apply Rltb_true; [lra|].
      destruct (Rle_dec 0 x) as [L|L]; [|nra]. rewrite <- (sqrt_sqrt x L). nra.
    - apply Rltb_false in E. symmetry. apply andb_false_iff. destruct (Rlt_dec 0 tol) as [T|T]; [right|left; apply Rltb_false; lra].
      apply Rltb_false. destruct (Rle_dec 0 x) as [L|L]; [rewrite <- (sqrt_sqrt x L); nra|]. rewrite sqrt_neg_0 in E by lra. lra.
  Qed.

  Definition same_full (fu : @full R P) : @ffull (option R) P :=
    mkFfull (same_state (fu_state fu)) (same_half (fu_half fu)) (Some (sqrt (r_ms (fu_rep fu)))) (Some (r_maxpen (fu_rep fu)))
      (r_maxdu (fu_rep fu)) (Some (r_maxpres (fu_rep fu))) (Some (r_padpres (fu_rep fu))) (fu_conv fu).
  Lemma second_eq : forall s h, exists fu, second_half K c s h = Ok fu /\ fsecond X k (same_state s) (same_half h) = same_full fu.
  Proof.
    intros s h. unfold second_half. destruct (max_pres_eq h) as (mp & -> & MP). eexists. split; [reflexivity|].
    match goal with |- _ = ?r => set (w := r) end. cbv delta [fsecond]. cbv beta.
    pull fo. known fo (defined (new_force K c h)); [apply new_force_eq|]. set (f := new_force K c h).
    pull uo. known uo (defined (c_disp c f)); [apply (sp_disp _ _ SP)|]. set (u := c_disp c f).
    pull du. set (du' := rmax K (c_ranks c) (fun _ => true) (fun p => absF K (osub K (u p) (s_u s p)))). known du du'.
    { unfold du'. rewrite <- max_eq. f_equal. f_equal. extensionality p. apply abs_eq. }
    pull Go. set (G := new_G K h). known Go (Some G).
    { unfold fnew_G, G, new_G. change (y_str (same_half h)) with (same_status (h_str h)). rewrite mix_eq. destruct (is_mix (h_str h)); reflexivity. }
    pull rm. set (ms := if Nat.ltb 0 (h_Acg h) then odiv K G (onat K (h_Acg h)) else G). known rm (Some (sqrt ms)).
    { unfold ms. change (y_Acg (same_half h)) with (h_Acg h). destruct (Nat.ltb 0 (h_Acg h)) eqn:N; [|reflexivity].
      change (adiv X (Some G) (anat X (h_Acg h))) with (xdiv (Some G) (Some (INR (h_Acg h)))). rewrite div_some by (apply nat_pos, N). reflexivity. }
    pull mpo. set (pen := match rmax K (c_ranks c) (comp c) (fun p => bmul K (h_c h p) (osub K (oadd K (c_h c p) (h_off h)) (u p))) with Some x => maxF K (o0 K) x | None => o0 K end).
    known mpo (Some pen).
    { unfold pen. rewrite comp_eq, (sp_h _ _ SP).
      replace (fun p : P => btimes X (y_c (same_half h) p) (asub X (aadd X (defined (c_h c) p) (y_off (same_half h))) (defined u p)))
        with (defined (fun p => bmul K (h_c h p) (osub K (oadd K (c_h c p) (h_off h)) (u p)))).
      - rewrite max_eq. destruct (rmax K (c_ranks c) (comp c) (fun p => bmul K (h_c h p) (osub K (oadd K (c_h c p) (h_off h)) (u p)))) as [x|]; [|reflexivity].
        unfold pymax, maxF. change (alt X (a0 X) (Some x)) with (oltb K (o0 K) x). destruct (oltb K (o0 K) x); reflexivity.
      - extensionality p. symmetry. apply btimes_eq. }
    pull to. set (tot := oopp K (rsum K (c_ranks c) (fun p => bmul K (comp c p) (f p)))). known to (Some tot).
    { rewrite comp_eq, sum_eq. reflexivity. }
    pull cf. set (cf' := match c_ext c with Some Fx => rel_lt K (osub K tot Fx) tot (c_thermotol c) | None => match s_lasttf s with Some l => rel_lt K (osub K tot l) tot (c_thermotol c) | None => true end end).
    known cf cf'.
    { unfold cf'. rewrite (sp_ext _ _ SP), (sp_thermotol _ _ SP). change (z_lasttf (same_state s)) with (option_map Some (s_lasttf s)).
      destruct (c_ext c) as [Fx|]; cbn [option_map]; [apply rel_eq|]. destruct (s_lasttf s) as [l|]; cbn [option_map]; [apply rel_eq|reflexivity]. }
    pull mo. set (mh := match rmax K (c_ranks c) (comp c) (c_h c) with Some x => Some (oadd K x (h_off h)) | None => None end). known mo mh.
    { unfold mh. rewrite comp_eq, (sp_h _ _ SP), max_eq. destruct (rmax K (c_ranks c) (comp c) (c_h c)); reflexivity. }
    pull ch. set (ch' := match c_ext c, s_lastmh s with Some _, Some l => match mh, l with Some x, Some y => rel_lt K (osub K x y) x (c_thermotol c) | _, _ => false end | _, _ => true end).
    known ch ch'.
    { unfold ch'. rewrite (sp_ext _ _ SP), (sp_thermotol _ _ SP). change (z_lastmh (same_state s)) with (s_lastmh s).
      destruct (c_ext c) as [Fx|]; cbn [option_map]; [|reflexivity]. destruct (s_lastmh s) as [[y|]|]; [| |reflexivity]; destruct mh as [x|]; try reflexivity. apply rel_eq. }
    assert (DU : xtest Rltb du' (Some (c_pentol c)) = oltb_inf K du' (c_pentol c)).
    { unfold du'. destruct (max_some (fun _ => true) (fun p => absF K (osub K (u p) (s_u s p)))) as (x & ->); [|reflexivity].
      destruct CN as (p0 & I0 & _). exists p0. auto. }
    pull com. known com (oltb_inf K du' (c_pentol c) && Rltb mp (c_forcetol c) && Rltb (pad_pres K c h) (c_forcetol c)).
    { rewrite (sp_pentol _ _ SP), (sp_forcetol _ _ SP), MP, pad_pres_eq. change (alt X) with (xtest Rltb). rewrite DU. reflexivity. }
    pull ct. change (y_str (same_half h)) with (same_status (h_str h)) in ct. rewrite MP, pad_pres_eq.
    assert (CT : ct = if is_mix (h_str h) then oltb_inf K du' (c_pentol c) && Rltb mp (c_forcetol c) && Rltb (pad_pres K c h) (c_forcetol c)
       else (Rltb 0 (c_pentol c) && Rltb ms (c_pentol c * c_pentol c)) && Rltb pen (c_pentol c) && oltb_inf K du' (c_pentol c) && Rltb mp (c_forcetol c) && Rltb (pad_pres K c h) (c_forcetol c)).
    { unfold ct. rewrite mix_eq. destruct (is_mix (h_str h)); [reflexivity|]. rewrite (sp_pentol _ _ SP). change (alt X (Some (sqrt ms)) (Some (c_pentol c))) with (Rltb (sqrt ms) (c_pentol c)).
      rewrite rms_eq. change (alt X (Some pen) (Some (c_pentol c))) with (Rltb pen (c_pentol c)). rewrite !andb_assoc. reflexivity. }
    clearbody ct. subst ct. unfold w, same_full. cbn [fu_state fu_half fu_rep fu_conv r_ms r_maxpen r_maxdu r_maxpres r_padpres]. cbn [mat ROps]. fold f u. unfold same_state at 2. cbn [s_f s_u s_t s_delta s_str s_Gold s_off s_tau s_mixfac s_mixsteps s_lastmh s_lasttf s_nit s_nfev option_map].
    f_equal.
    unfold fnew_delta, fnew_str, new_delta, new_str. rewrite any_eq. change (y_str (same_half h)) with (same_status (h_str h)). rewrite mix_eq.
    f_equal. destruct (is_mix (h_str h)); [reflexivity|]. destruct (any_nc K c h); reflexivity.
  Qed.
  Definition same_iter (r : result (@full R P)) : @ffull (option R) P + fexn :=
    match r with Ok fu => inl (same_full fu) | Raise _ => inr BisectError end.
  Lemma iter_eq : forall s, fiter X k (same_state s) = same_iter (iter K c s).
  Proof.
    intros s. unfold fiter, iter. rewrite first_eq. destruct (first_half K c s) as [h|e]; cbn [same_first]; [|reflexivity].
    destruct (second_eq s h) as (fu & -> & ->). reflexivity.
  Qed.

  (** ** Results and loop *)
  Lemma energy_eq : forall s, xdiv (option_map Ropp (asum X (vals k (k_slice k) (fun p => xop2 Rmult (Some (s_f s p)) (Some (s_u s p)))))) (Some (INR 2)) = Some (energy K c s).
  Proof.
    intros s. change (fun p : P => xop2 Rmult (Some (s_f s p)) (Some (s_u s p))) with (defined (fun p => s_f s p * s_u s p)).
    rewrite sum_eq, (sp_slice _ _ SP). cbn [option_map]. rewrite div_some by (cbn; lra). unfold energy.
    change (onat K) with INR. cbn [odiv oopp oadd o1 ROps INR]. reflexivity.
  Qed.
  Lemma converged_eq : forall fu, fresult X k true (same_full fu) = same_result (converged_result K c fu).
  Proof.
    intros fu. unfold fresult, same_result. cbv zeta.
    cbn [same_full w_state w_half w_maxpen w_maxpres converged_result x_success x_x x_jac x_active x_fun x_offset x_nit x_nfev x_str x_maxpen x_maxpres x_tau].
    change (z_str (same_state (fu_state fu))) with (same_status (s_str (fu_state fu))). rewrite mix_eq, comp_eq.
    f_equal.
    - extensionality p. apply (f_equal Some). symmetry. apply Ropp_involutive.
    - apply energy_eq.
  Qed.
  Lemma failed_eq : forall n fu, fresult X k false (same_full fu) = same_result (failed_result K c n fu).
  Proof.
    intros n fu. unfold fresult, same_result. cbv zeta.
    cbn [same_full w_state w_half w_maxpen w_maxpres failed_result x_success x_x x_jac x_active x_fun x_offset x_nit x_nfev x_str x_maxpen x_maxpres x_tau].
    f_equal.
    - extensionality p. apply (f_equal Some). symmetry. apply Ropp_involutive.
    - apply energy_eq.
  Qed.
  Lemma iter_exn : forall s e, iter K c s = Raise e -> e <> UnboundLocalError.
  Proof.
    intros s e. unfold iter. destruct (first_half K c s) as [h|e'] eqn:E.
    - destruct (second_eq s h) as (fu & -> & _). discriminate.
    - intros Q. injection Q as <-. revert E. unfold first_half, mix_half. destruct (sp_hard _ _ SP) as [[-> _]|(H & -> & _)]; [discriminate|].
      destruct (do_cg K c s); [discriminate|]. cbv zeta. destruct (c_ext c); [|discriminate].
      match goal with |- context [match ?a with Some _ => _ | None => _ end] => destruct a end; [|intros Q; injection Q as <-; discriminate].
      match goal with |- context [match ?a with Some _ => _ | None => _ end] => destruct a end; [|intros Q; injection Q as <-; discriminate].
      match goal with |- context [match ?a with Some _ => _ | None => _ end] => destruct a end; [discriminate|intros Q; injection Q as <-; discriminate].
  Qed.
  Lemma reqb_refl : forall x, Reqb x x = true.
  Proof. intros x. apply Reqb_true. reflexivity. Qed.
  Lemma loop_eq : forall m n s last, floop X k n (same_state s) (option_map same_full last) = same_outcome (snd (loop K c m n s last)).
  Proof.
    intros m n. induction n as [|n IH]; intros s last; cbn [floop loop].
    - destruct last as [fu|]; cbn [option_map snd same_outcome]; [|reflexivity]. f_equal. apply failed_eq.
    - rewrite iter_eq. destruct (iter K c s) as [fu|e] eqn:E; cbn [same_iter].
      + change (w_conv (same_full fu)) with (fu_conv fu). destruct (fu_conv fu).
        * cbn [snd same_outcome]. f_equal. apply converged_eq.
        * replace (anan X (z_Gold (w_state (same_full fu))) || anan X (w_rms (same_full fu))) with false
            by (cbn; unfold anan; cbn; rewrite !reqb_refl; reflexivity).
          specialize (IH (fu_state fu) (Some fu)). cbn [option_map] in IH. change (w_state (same_full fu)) with (same_state (fu_state fu)). rewrite IH.
          destruct (loop K c m n (fu_state fu) (Some fu)) as [evs r]. reflexivity.
      + pose proof (iter_exn s e E) as N. cbn [snd same_outcome]. destruct e; try reflexivity. congruence.
  Qed.
  Lemma run_eq : forall n, frun X k n = same_outcome (ccg c n).
  Proof. intros n. unfold frun, ccg, run, run_trace. rewrite start_eq. apply (loop_eq n n (init_state K c) None). Qed.
End Agree.

(** Every problem on one process with one hardness has its counterpart. *)
Definition val0 {P} (f : P -> option R) : P -> R := fun p => match f p with Some x => x | None => 0 end.
Definition in_exact {P} (pts : list P) (c : @cfg R P) : @fcfg (option R) P :=
  mkFcfg pts (c_slice c) (c_masked c) (defined (c_h c)) (fun f => defined (c_disp c (val0 f))) (fun u => defined (c_force c (val0 u)))
    (match c_hard c with Some (HScalar H) => Some (Some H) | _ => None end) (option_map Some (c_ext c)) (Some (c_offset c))
    (option_map defined (c_u0 c)) (option_map defined (c_f0 c)) (Some (c_pentol c)) (Some (c_forcetol c)) (Some (c_thermotol c))
    (Some (c_mixfac c)) (Some (c_mixdec c)) (c_minmix c) (c_nsurf c)
    (fun phi a b => match a, b with
                    | Some a, Some b => option_map Some (c_bisect c (fun x => match phi (Some x) with Some y => y | None => 0 end) a b)
                    | _, _ => None end).
Lemma in_exact_same : forall {P} (pts : list P) c, c_ranks c = [pts] -> (forall H, c_hard c <> Some (HArray H)) -> same_problem c (in_exact pts c).
Proof.
  intros P pts c RK HA. constructor; try reflexivity; [exact RK| |].
  - cbn. destruct (c_hard c) as [[H|H]|]; [right; eauto|exfalso; apply (HA H); reflexivity|left; auto].
  - intros phi psi a b E. cbn. f_equal. f_equal. extensionality x. rewrite E. reflexivity.
Qed.
