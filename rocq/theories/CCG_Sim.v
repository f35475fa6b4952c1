(** Simulation between two runs of the solver: change of units, of the height
    reference, of the numbering of grid points and of the decomposition. *)
From Coq Require Import Reals Lra List Bool Arith Lia Permutation FunctionalExtensionality.
From Verif Require Import CCG_Model CCG_Real CCG_Spec.
Import ListNotations.
Local Open Scope R_scope.

(** Problem [c'] is problem [c] with lengths multiplied by [a], forces by [b],
    heights raised by [sh] (offset lowered by [sh]) and points relabelled by
    [pi]. *)
Record related {P P'} (a b sh : R) (pi : P' -> P) (c : @cfg R P) (c' : @cfg R P') : Prop := {
  re_grid : Permutation (map pi (grid c')) (grid c);
  re_slice : forall p, c_slice c' p = c_slice c (pi p);
  re_masked : forall p, c_masked c' p = c_masked c (pi p);
  re_h : forall p, comp c (pi p) = true -> c_h c' p = a * c_h c (pi p) + sh;
  (* response to a force field, and to a field of gaps (search direction) *)
  re_disp : forall f p, c_disp c' (fun q => b * f (pi q)) p = a * c_disp c f (pi p);
  re_disp_t : forall t p, c_disp c' (fun q => a * t (pi q)) p = a * (a / b) * c_disp c t (pi p);
  re_force : forall u p, c_force c' (fun q => a * u (pi q)) p = b * c_force c u (pi p);
  re_hard : c_hard c' = match c_hard c with
                        | None => None
                        | Some (HScalar H) => Some (HScalar (b * H))
                        | Some (HArray H) => Some (HArray (fun p => b * H (pi p)))
                        end;
  re_ext : c_ext c' = option_map (Rmult b) (c_ext c);
  re_offset : c_offset c' = a * c_offset c - sh;
  re_u0 : c_u0 c' = option_map (fun u p => a * u (pi p)) (c_u0 c);
  re_f0 : c_f0 c' = option_map (fun f p => b * f (pi p)) (c_f0 c);
  re_pentol : c_pentol c' = a * c_pentol c;
  re_forcetol : c_forcetol c' = b * c_forcetol c;
  re_thermotol : c_thermotol c' = c_thermotol c;
  re_mixfac : c_mixfac c' = c_mixfac c;
  re_mixdec : c_mixdec c' = c_mixdec c;
  re_minmix : c_minmix c' = c_minmix c;
  re_nsurf : c_nsurf c' = c_nsurf c;
  re_bisect : forall g g' x y, (forall z, g' (a * z) = b * g z) ->
      c_bisect c' g' (a * x) (a * y) = option_map (Rmult a) (c_bisect c g x y);
  (* the height reference may only be changed in displacement control *)
  re_shift : c_ext c <> None -> sh = 0 }.

(** Result [r'] is result [r] in the new units and numbering. *)
Record result_related {P P'} (a b sh : R) (pi : P' -> P) (r : @sresult R P) (r' : @sresult R P') : Prop := {
  rr_x : forall p, x_x r' p = a * x_x r (pi p);
  rr_jac : forall p, x_jac r' p = b * x_jac r (pi p);
  rr_active : forall p, x_active r' p = x_active r (pi p);
  rr_plastic : x_plastic r' = option_map (fun m p => m (pi p)) (x_plastic r);
  rr_fun : x_fun r' = a * b * x_fun r;
  rr_offset : x_offset r' = a * x_offset r - sh;
  rr_success : x_success r' = x_success r;
  rr_message : x_message r' = x_message r;
  rr_nit : x_nit r' = x_nit r;
  rr_nfev : x_nfev r' = x_nfev r;
  rr_maxpen : x_maxpen r' = a * x_maxpen r;
  rr_maxpres : x_maxpres r' = b * x_maxpres r;
  rr_str : x_str r' = x_str r;
  rr_tau : x_tau r' = b / a * x_tau r }.

(** The conjugate-gradient half step, stage by stage. *)
Section Stages.
  Context {P : Type}.
  Notation K := (ROps P).
  Variable c : @cfg R P.
  Variable s : @state R P.
  Definition cg_off : R :=
    match c_ext c with
    | None => s_off s
    | Some _ => if Nat.ltb O (rcount (c_ranks c) (cg_set K c s))
                then rsum K (c_ranks c) (fun p => bmul K (comp c p && cg_set K c s p) (s_u s p - c_h c p))
                     / INR (rcount (c_ranks c) (cg_set K c s))
                else 0
    end.
  Definition cg_gap : P -> R := fun p => s_u s p - c_h c p - cg_off.
  Definition cg_G : R :=
    rsum K (c_ranks c) (fun p => bmul K (comp c p) (bmul K (cg_set K c s p) (cg_gap p * cg_gap p))).
  Definition cg_t : P -> R := fun p =>
    if comp c p then bmul K (cg_set K c s p)
      (if s_delta s && Rltb 0 (s_Gold s) then cg_gap p + cg_G / s_Gold s * s_t s p else cg_gap p)
    else s_t s p.
  Definition cg_x : R := - rsum K (c_ranks c) (fun p => bmul K (cg_set K c s p) (c_disp c cg_t p * cg_t p)).
  Definition cg_tau : R :=
    if Nat.ltb O (rcount (c_ranks c) (cg_set K c s)) then
      if Rltb 0 cg_x
      then rsum K (c_ranks c) (fun p => bmul K (comp c p) (bmul K (cg_set K c s p) (cg_gap p * cg_t p))) / cg_x
      else 0
    else 0.
  Lemma cg_half_eq : cg_half K c s =
    mkHalf (cg_set K c s) cg_gap (fun p => s_f s p + bmul K (cg_set K c s p) (cg_tau * cg_t p)) cg_t
      (if Nat.ltb O (rcount (c_ranks c) (cg_set K c s)) then (if Rltb 0 cg_x then cg_G else 0) else cg_G)
      cg_tau cg_off (if is_mix (s_str s) then Sd else s_str s) (c_mixfac c) (s_mixsteps s)
      (S (s_nfev s)) (rcount (c_ranks c) (contact_set K s)) (rcount (c_ranks c) (cg_set K c s)).
  Proof. reflexivity. Qed.
End Stages.

Section Sim.
  Context {P P' : Type}.
  Notation K := (ROps P).
  Notation K' := (ROps P').
  Variables a b sh : R.
  Variable pi : P' -> P.
  Hypothesis Ha : 0 < a.
  Hypothesis Hb : 0 < b.
  Variable c : @cfg R P.
  Variable c' : @cfg R P'.
  Hypothesis Re : related a b sh pi c c'.

  Ltac funext := apply functional_extensionality; intro.

  Definition pull (k : R) (f : P -> R) : P' -> R := fun p => k * f (pi p).
  Definition pullb (m : P -> bool) : P' -> bool := fun p => m (pi p).

  Lemma ltb_scale k x y : 0 < k -> Rltb (k * x) (k * y) = Rltb x y.
  Proof. intros Hk. apply Rltb_ext. split; intros; nra. Qed.
  Lemma ltb_scale0 k x : 0 < k -> Rltb (k * x) 0 = Rltb x 0.
  Proof. intros Hk. rewrite <- (ltb_scale k x 0) by auto. f_equal. ring. Qed.
  Lemma ltb_0scale k x : 0 < k -> Rltb 0 (k * x) = Rltb 0 x.
  Proof. intros Hk. rewrite <- (ltb_scale k 0 x) by auto. f_equal. ring. Qed.
  Lemma ltb_oscale k x y : 0 < k -> Rltb (- (k * x)) (k * y) = Rltb (- x) y.
  Proof. intros Hk. apply Rltb_ext. split; intros; nra. Qed.
  Lemma ltb_scaleo k x y : 0 < k -> Rltb (k * y) (- (k * x)) = Rltb y (- x).
  Proof. intros Hk. apply Rltb_ext. split; intros; nra. Qed.
  Lemma eqb_scale0 k x : 0 < k -> Reqb (k * x) 0 = Reqb x 0.
  Proof.
    intros Hk. destruct (Reqb x 0) eqn:E.
    - apply Reqb_true in E. subst. apply Reqb_true. ring.
    - apply Reqb_false in E. apply Reqb_false. intros H. apply E.
      apply Rmult_integral in H. destruct H; lra.
  Qed.

  Lemma grid_perm : Permutation (map pi (concat (c_ranks c'))) (concat (c_ranks c)).
  Proof. exact (re_grid _ _ _ _ _ _ Re). Qed.

  Lemma lsum_pull k phi : lsum (grid c') (pull k phi) = k * lsum (grid c) phi.
  Proof.
    rewrite <- (lsum_perm _ _ phi (re_grid _ _ _ _ _ _ Re)).
    unfold pull. rewrite lsum_scal. f_equal. unfold lsum. now rewrite map_map.
  Qed.
  Lemma rsum_pull k phi g : (forall p, g p = k * phi (pi p)) ->
    rsum K' (c_ranks c') g = k * rsum K (c_ranks c) phi.
  Proof.
    intros E. rewrite !rsum_lsum. fold (grid c') (grid c). rewrite <- lsum_pull.
    apply lsum_ext. intros. apply E.
  Qed.
  Lemma filter_map_pi (m : P -> bool) l : map pi (filter (pullb m) l) = filter m (map pi l).
  Proof. induction l; simpl; auto. unfold pullb at 1. destruct (m (pi a0)); simpl; congruence. Qed.
  Lemma filter_perm {A} (m : A -> bool) l l' : Permutation l l' -> Permutation (filter m l) (filter m l').
  Proof.
    induction 1; simpl; auto.
    - destruct (m x); auto.
    - destruct (m x), (m y); auto. apply perm_swap.
    - eapply perm_trans; eauto.
  Qed.
  Lemma filter_grid_perm m : Permutation (map pi (filter (pullb m) (concat (c_ranks c')))) (filter m (concat (c_ranks c))).
  Proof. rewrite filter_map_pi. apply filter_perm, grid_perm. Qed.
  Lemma rcount_pull m m' : (forall p, m' p = m (pi p)) -> rcount (c_ranks c') m' = rcount (c_ranks c) m.
  Proof.
    intros E. assert (m' = pullb m) by (funext; apply E). subst.
    rewrite !rcount_length. rewrite <- (Permutation_length (filter_grid_perm m)). now rewrite map_length.
  Qed.

  Lemma is_max_pull k s l l' phi g o : 0 < k -> Permutation (map pi l') l ->
    (forall p, In p l' -> g p = k * phi (pi p) + s) ->
    is_max l phi o -> is_max l' g (option_map (fun v => k * v + s) o).
  Proof.
    intros Hk Hp E. destruct o as [v|]; simpl.
    - intros [H1 [q [Hq H2]]]. split.
      + intros p Hpp. rewrite E by auto.
        assert (In (pi p) l) by (eapply Permutation_in; eauto; apply in_map; auto).
        specialize (H1 _ H). nra.
      + apply (Permutation_in _ (Permutation_sym Hp)) in Hq. apply in_map_iff in Hq.
        destruct Hq as [p [E1 E2]]. exists p. split; auto. rewrite E, E1, H2; auto.
    - intros ->. apply Permutation_sym, Permutation_nil in Hp. destruct l'; auto; discriminate.
  Qed.
  Lemma is_min_pull k s l l' phi g o : 0 < k -> Permutation (map pi l') l ->
    (forall p, In p l' -> g p = k * phi (pi p) + s) ->
    is_min l phi o -> is_min l' g (option_map (fun v => k * v + s) o).
  Proof.
    intros Hk Hp E. destruct o as [v|]; simpl.
    - intros [H1 [q [Hq H2]]]. split.
      + intros p Hpp. rewrite E by auto.
        assert (In (pi p) l) by (eapply Permutation_in; eauto; apply in_map; auto).
        specialize (H1 _ H). nra.
      + apply (Permutation_in _ (Permutation_sym Hp)) in Hq. apply in_map_iff in Hq.
        destruct Hq as [p [E1 E2]]. exists p. split; auto. rewrite E, E1, H2; auto.
    - intros ->. apply Permutation_sym, Permutation_nil in Hp. destruct l'; auto; discriminate.
  Qed.
  Lemma rmax_pull_s k s m m' phi g : 0 < k -> (forall p, m' p = m (pi p)) ->
    (forall p, m' p = true -> g p = k * phi (pi p) + s) ->
    rmax K' (c_ranks c') m' g = option_map (fun v => k * v + s) (rmax K (c_ranks c) m phi).
  Proof.
    intros Hk Em E. assert (m' = pullb m) by (funext; apply Em). subst.
    eapply is_max_unique; [apply rmax_is_max|].
    eapply is_max_pull; eauto using filter_grid_perm, rmax_is_max.
    intros p Hp. apply E. apply filter_In in Hp. apply Hp.
  Qed.
  Lemma rmax_pull k m m' phi g : 0 < k -> (forall p, m' p = m (pi p)) ->
    (forall p, m' p = true -> g p = k * phi (pi p)) ->
    rmax K' (c_ranks c') m' g = option_map (Rmult k) (rmax K (c_ranks c) m phi).
  Proof.
    intros Hk Em E. rewrite (rmax_pull_s k 0 m m' phi g) by (auto; intros; rewrite E by auto; ring).
    destruct (rmax K _ _ _); simpl; auto. f_equal. ring.
  Qed.
  Lemma rmin_pull k m m' phi g : 0 < k -> (forall p, m' p = m (pi p)) ->
    (forall p, m' p = true -> g p = k * phi (pi p)) ->
    rmin K' (c_ranks c') m' g = option_map (Rmult k) (rmin K (c_ranks c) m phi).
  Proof.
    intros Hk Em E. assert (m' = pullb m) by (funext; apply Em). subst.
    assert (H : rmin K' (c_ranks c') (pullb m) g = option_map (fun v => k * v + 0) (rmin K (c_ranks c) m phi)).
    { eapply is_min_unique; [apply rmin_is_min|].
      eapply is_min_pull; eauto using filter_grid_perm, rmin_is_min. intros p Hp.
      apply filter_In in Hp. rewrite E by apply Hp. ring. }
    rewrite H. destruct (rmin K _ _ _); simpl; auto. f_equal. ring.
  Qed.

  Lemma comp_pull p : comp c' p = comp c (pi p).
  Proof. unfold comp. now rewrite (re_slice _ _ _ _ _ _ Re), (re_masked _ _ _ _ _ _ Re). Qed.
  Lemma pad_pull p : pad c' p = pad c (pi p).
  Proof. unfold pad. now rewrite comp_pull. Qed.

  Lemma bmul_pull k m x : bmul K' m (k * x) = k * bmul K m x.
  Proof. unfold bmul. destruct m; simpl; ring. Qed.

  Record srel (s : @state R P) (s' : @state R P') : Prop := {
    sr_f : s_f s' = pull b (s_f s);
    sr_u : s_u s' = pull a (s_u s);
    sr_t : s_t s' = pull a (s_t s);
    sr_delta : s_delta s' = s_delta s;
    sr_str : s_str s' = s_str s;
    sr_Gold : s_delta s = true -> s_Gold s' = a * a * s_Gold s;
    sr_off : s_off s' = a * s_off s - sh;
    sr_tau : s_tau s' = b / a * s_tau s;
    sr_mixfac : s_mixfac s' = s_mixfac s;
    sr_mixsteps : s_mixsteps s' = s_mixsteps s;
    sr_lastmh : s_lastmh s' = option_map (option_map (Rmult a)) (s_lastmh s);
    sr_lasttf : s_lasttf s' = option_map (Rmult b) (s_lasttf s);
    sr_nit : s_nit s' = s_nit s;
    sr_nfev : s_nfev s' = s_nfev s }.

  Record hrel (h : @half R P) (h' : @half R P') : Prop := {
    hr_c : h_c h' = pullb (h_c h);
    hr_g : forall p, comp c (pi p) = true -> h_g h' p = pull a (h_g h) p;
    hr_f : h_f h' = pull b (h_f h);
    hr_t : h_t h' = pull a (h_t h);
    hr_G : h_G h' = a * a * h_G h;
    hr_tau : h_tau h' = b / a * h_tau h;
    hr_off : h_off h' = a * h_off h - sh;
    hr_str : h_str h' = h_str h;
    hr_mixfac : h_mixfac h' = h_mixfac h;
    hr_mixsteps : h_mixsteps h' = h_mixsteps h;
    hr_nfev : h_nfev h' = h_nfev h;
    hr_Ac : h_Acontact h' = h_Acontact h;
    hr_Acg : h_Acg h' = h_Acg h }.

  Definition rrel {A B} (R : A -> B -> Prop) (x : result A) (y : result B) : Prop :=
    match x, y with
    | Ok u, Ok v => R u v
    | Raise e, Raise e' => e = e'
    | _, _ => False
    end.

  Lemma init_sim : srel (init_state K c) (init_state K' c').
  Proof.
    unfold init_state.
    rewrite (re_u0 _ _ _ _ _ _ Re), (re_f0 _ _ _ _ _ _ Re).
    cbn [ROps mat oltb oadd o0 o1].
    set (u1 := match c_u0 c with None => fun _ : P => 0 | Some u => u end).
    set (u1' := match option_map _ (c_u0 c) with None => fun _ : P' => 0 | Some u => u end).
    assert (E1 : forall p, u1' p = a * u1 (pi p)).
    { intros p. unfold u1, u1'. destruct (c_u0 c); simpl; ring. }
    clearbody u1 u1'.
    set (u2 := fun p => if comp c p then _ else u1 p).
    set (u2' := fun p => if comp c' p then _ else u1' p).
    assert (E2 : u2' = (fun p => a * u2 (pi p))).
    { funext. unfold u2, u2'. rewrite comp_pull, (re_offset _ _ _ _ _ _ Re), E1.
      destruct (comp c (pi x)) eqn:EC; auto. rewrite (re_h _ _ _ _ _ _ Re) by exact EC.
      replace (a * c_h c (pi x) + sh + (a * c_offset c - sh)) with (a * (c_h c (pi x) + c_offset c)) by ring.
      rewrite ltb_scale by auto. destruct (Rltb _ _); auto. }
    rewrite E2. clear E2 u2'. clearbody u2.
    constructor; cbn [s_f s_u s_t s_delta s_str s_Gold s_off s_tau s_mixfac s_mixsteps s_lastmh s_lasttf s_nit s_nfev]; auto.
    - funext. unfold pull. rewrite pad_pull. destruct (pad c (pi x)); [ring|].
      destruct (c_f0 c); simpl; auto. apply (re_force _ _ _ _ _ _ Re).
    - destruct (c_f0 c); simpl; auto. funext. apply (re_disp _ _ _ _ _ _ Re).
    - funext. unfold pull. ring.
    - discriminate.
    - apply (re_offset _ _ _ _ _ _ Re).
    - ring.
    - apply (re_mixfac _ _ _ _ _ _ Re).
  Qed.

  Section Step.
    Variable s : @state R P.
    Variable s' : @state R P'.
    Hypothesis S : srel s s'.

    Lemma contact_sim p : contact_set K' s' p = contact_set K s (pi p).
    Proof. unfold contact_set. rewrite (sr_f _ _ S). unfold pull. simpl. apply ltb_scale0; auto. Qed.
    Lemma cg_sim p : cg_set K' c' s' p = cg_set K c s (pi p).
    Proof.
      unfold cg_set. rewrite (sr_f _ _ S), (re_hard _ _ _ _ _ _ Re). unfold pull. simpl.
      destruct (c_hard c) as [[H|H]|]; simpl; rewrite ltb_scale0 by auto; auto; f_equal;
        apply ltb_oscale; auto.
    Qed.
    Lemma do_cg_sim : do_cg K' c' s' = do_cg K c s.
    Proof.
      unfold do_cg. rewrite (rcount_pull _ _ contact_sim), (rcount_pull _ _ cg_sim), (sr_mixsteps _ _ S).
      rewrite (re_hard _ _ _ _ _ _ Re). destruct (c_hard c) as [[H|H]|]; reflexivity.
    Qed.

    Lemma cg_off_sim : cg_off c' s' = a * cg_off c s - sh.
    Proof.
      unfold cg_off. rewrite (re_ext _ _ _ _ _ _ Re), (rcount_pull _ _ cg_sim).
      destruct (c_ext c) as [Fx|] eqn:EE; simpl.
      - assert (H : sh = 0) by (apply (re_shift _ _ _ _ _ _ Re); congruence).
        destruct (Nat.ltb O _); [|rewrite H; ring].
        rewrite (rsum_pull a (fun p => bmul K (comp c p && cg_set K c s p) (s_u s p - c_h c p))).
        + rewrite H. unfold Rdiv. ring.
        + intros p. rewrite comp_pull, cg_sim, (sr_u _ _ S). unfold pull.
          destruct (comp c (pi p)) eqn:EC; [|unfold bmul; simpl; ring].
          rewrite (re_h _ _ _ _ _ _ Re), H, <- bmul_pull by exact EC. f_equal. ring.
      - apply (sr_off _ _ S).
    Qed.
    Lemma cg_gap_sim p : comp c (pi p) = true -> cg_gap c' s' p = pull a (cg_gap c s) p.
    Proof.
      intros EC. unfold cg_gap, pull. rewrite (re_h _ _ _ _ _ _ Re), (sr_u _ _ S), cg_off_sim by exact EC. unfold pull. ring.
    Qed.
    Lemma cg_G_sim : cg_G c' s' = a * a * cg_G c s.
    Proof.
      unfold cg_G. apply rsum_pull. intros p. rewrite comp_pull, cg_sim.
      destruct (comp c (pi p)) eqn:EC; [|unfold bmul; simpl; ring]. rewrite cg_gap_sim by exact EC. unfold pull.
      replace (a * cg_gap c s (pi p) * (a * cg_gap c s (pi p)))
        with (a * a * (cg_gap c s (pi p) * cg_gap c s (pi p))) by ring.
      now rewrite !bmul_pull.
    Qed.
    Lemma cg_t_sim : cg_t c' s' = pull a (cg_t c s).
    Proof.
      funext. unfold cg_t. rewrite comp_pull, cg_sim, (sr_t _ _ S), (sr_delta _ _ S), cg_G_sim.
      unfold pull. destruct (comp c (pi x)) eqn:EC; auto. rewrite cg_gap_sim by exact EC. unfold pull. rewrite <- bmul_pull. f_equal.
      destruct (s_delta s) eqn:Ed; simpl; auto. rewrite (sr_Gold _ _ S Ed).
      rewrite ltb_0scale by (apply Rmult_lt_0_compat; auto).
      destruct (Rltb 0 (s_Gold s)) eqn:EE; auto. apply Rltb_true in EE. field. split; lra.
    Qed.
    Lemma cg_x_sim : cg_x c' s' = a * (a / b) * a * cg_x c s.
    Proof.
      unfold cg_x. rewrite (rsum_pull (a * (a / b) * a) (fun p => bmul K (cg_set K c s p) (c_disp c (cg_t c s) p * cg_t c s p))).
      - ring.
      - intros p. rewrite cg_sim, cg_t_sim. unfold pull at 1. rewrite (re_disp_t _ _ _ _ _ _ Re).
        unfold pull. rewrite <- bmul_pull. f_equal. ring.
    Qed.
    Lemma cg_x_pos : Rltb 0 (cg_x c' s') = Rltb 0 (cg_x c s).
    Proof.
      rewrite cg_x_sim. apply ltb_0scale.
      assert (H : 0 < a / b) by (apply Rdiv_lt_0_compat; auto).
      apply Rmult_lt_0_compat; auto. apply Rmult_lt_0_compat; auto.
    Qed.
    Lemma cg_tau_sim : cg_tau c' s' = b / a * cg_tau c s.
    Proof.
      unfold cg_tau. rewrite (rcount_pull _ _ cg_sim), cg_x_pos. destruct (Nat.ltb O _); [|ring].
      destruct (Rltb 0 (cg_x c s)) eqn:E; [|ring]. apply Rltb_true in E.
      rewrite (rsum_pull (a * a) (fun p => bmul K (comp c p) (bmul K (cg_set K c s p) (cg_gap c s p * cg_t c s p)))).
      - rewrite cg_x_sim. field. repeat split; lra.
      - intros p. rewrite comp_pull, cg_sim, cg_t_sim.
        destruct (comp c (pi p)) eqn:EC; [|unfold bmul; simpl; ring]. rewrite cg_gap_sim by exact EC. unfold pull.
        replace (a * cg_gap c s (pi p) * (a * cg_t c s (pi p)))
          with (a * a * (cg_gap c s (pi p) * cg_t c s (pi p))) by ring.
        now rewrite !bmul_pull.
    Qed.

    Lemma cg_half_sim : hrel (cg_half K c s) (cg_half K' c' s').
    Proof.
      rewrite !cg_half_eq. rewrite (rcount_pull _ _ contact_sim), (rcount_pull _ _ cg_sim), cg_x_pos.
      constructor; cbn [h_c h_g h_f h_t h_G h_tau h_off h_str h_mixfac h_mixsteps h_nfev h_Acontact h_Acg]; auto.
      - funext. apply cg_sim.
      - apply cg_gap_sim.
      - funext. unfold pull. rewrite cg_sim, cg_tau_sim, cg_t_sim, (sr_f _ _ S). unfold pull.
        replace (b / a * cg_tau c s * (a * cg_t c s (pi x))) with (b * (cg_tau c s * cg_t c s (pi x))) by (field; lra).
        rewrite bmul_pull. ring.
      - apply cg_t_sim.
      - rewrite cg_G_sim. destruct (Nat.ltb O _); auto. destruct (Rltb 0 _); auto. ring.
      - apply cg_tau_sim.
      - apply cg_off_sim.
      - now rewrite (sr_str _ _ S).
      - apply (re_mixfac _ _ _ _ _ _ Re).
      - apply (sr_mixsteps _ _ S).
      - now rewrite (sr_nfev _ _ S).
    Qed.

    Definition hd_rel (hd : hardness_arg R P) : hardness_arg R P' :=
      match hd with HScalar H => HScalar (b * H) | HArray H => HArray (fun p => b * H (pi p)) end.
    Lemma re_hard' : c_hard c' = option_map hd_rel (c_hard c).
    Proof. rewrite (re_hard _ _ _ _ _ _ Re). destruct (c_hard c) as [[H|H]|]; reflexivity. Qed.
    Lemma hval_sim hd p : hval (hd_rel hd) p = b * hval hd (pi p).
    Proof. destruct hd; reflexivity. Qed.

    Lemma mix_half_sim hd : rrel hrel (mix_half K c hd s) (mix_half K' c' (hd_rel hd) s').
    Proof.
      unfold mix_half. rewrite (rcount_pull _ _ contact_sim), (rcount_pull _ _ cg_sim).
      cbn [ROps mat oltb oadd osub omul odiv oopp onat o0 o1].
      set (off := match c_ext c with None => Ok (s_off s) | Some _ => _ end).
      set (off' := match c_ext c' with None => Ok (s_off s') | Some _ => _ end).
      assert (Eo : rrel (fun o o' => o' = a * o - sh) off off').
      { unfold off, off'. rewrite (re_ext _ _ _ _ _ _ Re). destruct (c_ext c) as [Fx|] eqn:EE; simpl.
        - assert (Hsh : sh = 0) by (apply (re_shift _ _ _ _ _ _ Re); congruence).
          destruct hd as [H|H]; simpl; auto.
          assert (Eg0 : forall p, comp c (pi p) = true -> s_u s' p - c_h c' p = a * (s_u s (pi p) - c_h c (pi p))).
          { intros p EC. rewrite (re_h _ _ _ _ _ _ Re), (sr_u _ _ S), Hsh by exact EC. unfold pull. ring. }
          assert (Eg1 : forall p, comp c' p = true -> s_u s' p - c_h c' p = a * (s_u s (pi p) - c_h c (pi p))).
          { intros p. rewrite comp_pull. apply Eg0. }
          rewrite (rmax_pull a (comp c) (comp c') (fun p => s_u s p - c_h c p)) by auto using comp_pull.
          rewrite (rmin_pull a (comp c) (comp c') (fun p => s_u s p - c_h c p)) by auto using comp_pull.
          destruct (rmax K _ _ _) as [x|]; simpl; auto. destruct (rmin K _ _ _) as [y|]; simpl; auto.
          rewrite (re_bisect _ _ _ _ _ _ Re (fun x => INR (rcount (c_ranks c)
              (fun p => comp c p && Rltb (s_u s p - c_h c p - x) 0)) * H - Fx)).
          + destruct (c_bisect c _ x y); simpl; auto. rewrite Hsh. ring.
          + intros z. rewrite (rcount_pull (fun p => comp c p && Rltb (s_u s p - c_h c p - z) 0)); [ring|].
            intros p. rewrite comp_pull. destruct (comp c (pi p)) eqn:EC; [|reflexivity]. rewrite Eg0 by exact EC. f_equal.
            rewrite <- Rmult_minus_distr_l. apply ltb_scale0; auto.
        - apply (sr_off _ _ S). }
      destruct off as [o|], off' as [o'|]; simpl in Eo; try contradiction; simpl; auto.
      assert (Eg : forall p, comp c (pi p) = true -> s_u s' p - c_h c' p - o' = a * (s_u s (pi p) - c_h c (pi p) - o)).
      { intros p EC. rewrite (re_h _ _ _ _ _ _ Re), (sr_u _ _ S), Eo by exact EC. unfold pull. ring. }
      assert (Ecr : forall p, (if comp c' p then Rltb (s_u s' p - c_h c' p - o') 0 else cg_set K' c' s' p)
         = (if comp c (pi p) then Rltb (s_u s (pi p) - c_h c (pi p) - o) 0 else cg_set K c s (pi p))).
      { intros p. rewrite comp_pull, cg_sim. destruct (comp c (pi p)) eqn:EC; [|reflexivity].
        rewrite Eg, ltb_scale0 by auto. reflexivity. }
      constructor; cbn [h_c h_g h_f h_t h_G h_tau h_off h_str h_mixfac h_mixsteps h_nfev h_Acontact h_Acg]; auto.
      - funext. apply Ecr.
      - funext. rewrite Ecr, hval_sim, (sr_mixfac _ _ S), (sr_f _ _ S), bmul_pull. unfold pull. ring.
      - apply (sr_t _ _ S).
      - ring.
      - apply (sr_tau _ _ S).
      - now rewrite (sr_mixfac _ _ S), (re_mixdec _ _ _ _ _ _ Re).
      - now rewrite (sr_str _ _ S), (sr_mixsteps _ _ S), (re_minmix _ _ _ _ _ _ Re).
      - apply (sr_nfev _ _ S).
    Qed.

    Lemma first_half_sim : rrel hrel (first_half K c s) (first_half K' c' s').
    Proof.
      unfold first_half. rewrite re_hard'. destruct (c_hard c) as [hd|]; simpl; [|apply cg_half_sim].
      rewrite do_cg_sim. destruct (do_cg K c s); [apply cg_half_sim|apply mix_half_sim].
    Qed.
  End Step.

  Section Second.
    Variable s : @state R P.
    Variable s' : @state R P'.
    Hypothesis S : srel s s'.
    Variable h : @half R P.
    Variable h' : @half R P'.
    Hypothesis Hr : hrel h h'.

    Lemma leb_0scale k x : 0 < k -> leb K' 0 (k * x) = leb K 0 x.
    Proof. intros. unfold leb. simpl. now rewrite ltb_scale0. Qed.
    Lemma tensile_sim p : mask_tensile K' h' p = mask_tensile K h (pi p).
    Proof. unfold mask_tensile. rewrite (hr_f _ _ Hr). unfold pull. apply leb_0scale; auto. Qed.
    Lemma flowing_sim p : mask_flowing K' c' h' p = mask_flowing K c h (pi p).
    Proof.
      unfold mask_flowing. rewrite re_hard', (hr_f _ _ Hr). destruct (c_hard c) as [hd|]; simpl; auto.
      rewrite hval_sim. unfold leb, pull. simpl. f_equal. apply ltb_oscale; auto.
    Qed.
    Lemma nc_sim p : nc_set K' c' h' p = nc_set K c h (pi p).
    Proof.
      unfold nc_set. rewrite comp_pull, tensile_sim, flowing_sim.
      destruct (comp c (pi p)) eqn:EC; [|reflexivity]. rewrite (hr_g _ _ Hr) by exact EC. unfold pull. simpl.
      now rewrite ltb_scale0, ltb_0scale by auto.
    Qed.
    Lemma any_nc_sim : any_nc K' c' h' = any_nc K c h.
    Proof. unfold any_nc. now rewrite (rcount_pull _ _ nc_sim). Qed.
    Lemma abs_sim k x : 0 < k -> absF K' (k * x) = k * absF K x.
    Proof. intros. rewrite !absF_Rabs, Rabs_mult, (Rabs_right k); lra. Qed.
    Lemma pad_pres_sim : pad_pres K' c' h' = b * pad_pres K c h.
    Proof.
      unfold pad_pres. rewrite (rcount_pull _ _ pad_pull).
      rewrite (rmax_pull b (pad c) (pad c') (fun p => absF K (h_f h p))); auto using pad_pull.
      - destruct (Nat.ltb _ _); [|simpl; ring]. destruct (rmax K _ _ _); simpl; ring.
      - intros p _. rewrite (hr_f _ _ Hr). unfold pull. apply abs_sim; auto.
    Qed.
    Lemma max_scale k x y : 0 < k -> maxF K' (k * x) (k * y) = k * maxF K x y.
    Proof. intros. unfold maxF. simpl. rewrite ltb_scale by auto. destruct (Rltb x y); auto. Qed.
    Lemma max_pres_sim : rrel (fun x y => y = b * x) (max_pres K c h) (max_pres K' c' h').
    Proof.
      unfold max_pres. rewrite (rcount_pull _ _ tensile_sim), (rcount_pull _ _ flowing_sim), re_hard'.
      rewrite (rmax_pull b (mask_tensile K h) (mask_tensile K' h') (h_f h))
        by (auto using tensile_sim; intros; rewrite (hr_f _ _ Hr); reflexivity).
      set (m := if Nat.ltb O (rcount (c_ranks c) (mask_tensile K h)) then match rmax K _ _ _ with None => _ | Some _ => _ end else _).
      set (m' := if Nat.ltb O (rcount (c_ranks c) (mask_tensile K h)) then match option_map _ _ with None => _ | Some _ => _ end else _).
      assert (E : m' = b * m).
      { unfold m, m'. destruct (Nat.ltb _ _); [|simpl; ring]. destruct (rmax K _ _ _); simpl; ring. }
      clearbody m m'. destruct (c_hard c) as [[H|H]|]; simpl; auto.
      rewrite eqb_scale0 by auto. destruct (Reqb H 0); simpl; auto.
      rewrite (rmin_pull b (mask_flowing K c h) (mask_flowing K' c' h') (fun p => h_f h p + H))
        by (auto using flowing_sim; intros; rewrite (hr_f _ _ Hr); unfold pull; ring).
      destruct (Nat.ltb _ _); simpl; auto. destruct (rmin K _ _ _) as [v|]; simpl; auto.
      rewrite E. replace (- (b * v)) with (b * - v) by ring. apply max_scale; auto.
    Qed.
    Lemma clip_tensile_sim : clip_tensile K' h' = pull b (clip_tensile K h).
    Proof.
      funext. unfold clip_tensile, pull. simpl. rewrite tensile_sim, (hr_f _ _ Hr). unfold pull.
      destruct (mask_tensile K h (pi x)); ring.
    Qed.
    Lemma adjust_sim f : adjust_force K' c' (pull b f) = pull b (adjust_force K c f).
    Proof.
      unfold adjust_force. rewrite (re_ext _ _ _ _ _ _ Re). destruct (c_ext c) as [Fx|]; simpl; auto.
      rewrite (rsum_pull b (fun p => bmul K (comp c p) (f p)))
        by (intros p; rewrite comp_pull; unfold pull; apply bmul_pull).
      set (T := rsum K _ _). replace (- (b * T)) with (b * - T) by ring. rewrite eqb_scale0 by auto.
      funext. unfold pull. destruct (Reqb (- T) 0) eqn:E.
      - rewrite pad_pull, (re_nsurf _ _ _ _ _ _ Re). destruct (pad c (pi x)); [ring|]. unfold Rdiv. ring.
      - apply Reqb_false in E. replace (b * Fx / (b * - T)) with (Fx / (- T)); [ring|]. field. split; lra.
    Qed.
    Lemma clip_flow_sim f : clip_flow K' c' h' (pull b f) = pull b (clip_flow K c h f).
    Proof.
      unfold clip_flow. rewrite re_hard'. destruct (c_hard c) as [hd|]; simpl; auto.
      funext. rewrite flowing_sim, hval_sim. unfold pull. destruct (mask_flowing K c h (pi x)); ring.
    Qed.
    Lemma new_force_sim : new_force K' c' h' = pull b (new_force K c h).
    Proof.
      unfold new_force. rewrite clip_tensile_sim, adjust_sim, clip_flow_sim, any_nc_sim, (hr_str _ _ Hr).
      destruct (is_mix (h_str h)); auto. destruct (any_nc K c h); auto. simpl. funext.
      rewrite comp_pull, nc_sim, (hr_tau _ _ Hr). unfold pull.
      destruct (comp c (pi x)) eqn:EC; auto. rewrite (hr_g _ _ Hr) by exact EC. unfold pull. rewrite bmul_pull. field. lra.
    Qed.

    Record frel (fu : @full R P) (fu' : @full R P') : Prop := {
      fr_state : srel (fu_state fu) (fu_state fu');
      fr_half : hrel (fu_half fu) (fu_half fu');
      fr_conv : fu_conv fu' = fu_conv fu;
      fr_maxpen : r_maxpen (fu_rep fu') = a * r_maxpen (fu_rep fu);
      fr_maxpres : r_maxpres (fu_rep fu') = b * r_maxpres (fu_rep fu) }.

    Lemma rel_lt_scale k x y t : 0 < k -> rel_lt K' (k * x) (k * y) t = rel_lt K x y t.
    Proof.
      intros Hk. unfold rel_lt. cbn [ROps oeqb o0 odiv oltb]. rewrite eqb_scale0 by auto.
      destruct (Reqb y 0) eqn:E; auto. apply Reqb_false in E. rewrite !absF_Rabs. do 2 f_equal. field. lra.
    Qed.

    Lemma second_half_sim : rrel frel (second_half K c s h) (second_half K' c' s' h').
    Proof.
      unfold second_half. pose proof max_pres_sim as MP.
      destruct (max_pres K c h) as [mp|e], (max_pres K' c' h') as [mp'|e']; simpl in MP; try contradiction; simpl; auto.
      cbn [ROps mat oltb oadd osub omul odiv oopp onat o0 o1].
      rewrite new_force_sim, pad_pres_sim.
      set (f := new_force K c h). set (u := c_disp c f).
      assert (Eu : c_disp c' (pull b f) = pull a u) by (funext; apply (re_disp _ _ _ _ _ _ Re)).
      rewrite Eu.
      rewrite (rmax_pull a (fun _ => true) (fun _ => true) (fun p => absF K (u p - s_u s p))).
      2: auto. 2: auto.
      2: { intros p _. rewrite (sr_u _ _ S). unfold pull. rewrite <- abs_sim by auto. f_equal. ring. }
      rewrite (rmax_pull a (comp c) (comp c') (fun p => bmul K (h_c h p) (c_h c p + h_off h - u p))
        (fun p => bmul K' (h_c h' p) (c_h c' p + h_off h' - pull a u p))).
      2: auto. 2: apply comp_pull.
      2: { intros p EC. rewrite comp_pull in EC. rewrite (hr_c _ _ Hr), (hr_off _ _ Hr), (re_h _ _ _ _ _ _ Re) by exact EC. unfold pull, pullb.
           rewrite <- bmul_pull. f_equal. ring. }
      rewrite (rmax_pull_s a sh (comp c) (comp c') (c_h c) (c_h c')) by (auto using comp_pull; intros p EC; rewrite comp_pull in EC; apply (re_h _ _ _ _ _ _ Re); exact EC).
      rewrite (rsum_pull b (fun p => bmul K (comp c p) (f p)))
        by (intros p; rewrite comp_pull; unfold pull; apply bmul_pull).
      set (T := rsum K (c_ranks c) (fun p => bmul K (comp c p) (f p))).
      replace (- (b * T)) with (b * - T) by ring. set (tot := - T).
      set (maxdu := rmax K (c_ranks c) (fun _ => true) _).
      set (mpen := match rmax K (c_ranks c) (comp c) (fun p => bmul K _ _) with None => 0 | Some x => maxF K 0 x end).
      set (mpen' := match option_map (Rmult a) (rmax K (c_ranks c) (comp c) (fun p => bmul K _ _)) with None => 0 | Some x => _ end).
      assert (Epen : mpen' = a * mpen).
      { unfold mpen, mpen'. destruct (rmax K _ _ (fun p => bmul K _ _)); simpl; [|ring].
        rewrite <- max_scale by auto. f_equal. ring. }
      clearbody mpen mpen'.
      set (mh := match rmax K (c_ranks c) (comp c) (c_h c) with None => None | Some x => Some (x + h_off h) end).
      set (mh' := match option_map _ (rmax K (c_ranks c) (comp c) (c_h c)) with None => None | Some x => Some (x + h_off h') end).
      assert (Emh : mh' = option_map (Rmult a) mh).
      { unfold mh, mh'. destruct (rmax K _ _ (c_h c)); simpl; auto. f_equal. rewrite (hr_off _ _ Hr). ring. }
      clearbody mh mh'.
      assert (EG : new_G K' h' = a * a * new_G K h).
      { unfold new_G. rewrite (hr_str _ _ Hr), (hr_G _ _ Hr). destruct (is_mix (h_str h)); simpl; auto. ring. }
      assert (Es : new_str K' c' h' = new_str K c h) by (unfold new_str; now rewrite (hr_str _ _ Hr), any_nc_sim).
      assert (Ed : new_delta K' c' h' = new_delta K c h) by (unfold new_delta; now rewrite (hr_str _ _ Hr), any_nc_sim).
      constructor; cbn [fu_state fu_half fu_conv fu_rep r_maxpen r_maxpres]; auto.
      - constructor; cbn [s_f s_u s_t s_delta s_str s_Gold s_off s_tau s_mixfac s_mixsteps s_lastmh s_lasttf s_nit s_nfev];
          auto; try apply Hr.
        + rewrite Emh. reflexivity.
        + now rewrite (sr_nit _ _ S).
        + now rewrite (hr_nfev _ _ Hr).
      - f_equal; [f_equal|].
        + rewrite (re_ext _ _ _ _ _ _ Re), (re_thermotol _ _ _ _ _ _ Re), (sr_lasttf _ _ S).
          destruct (c_ext c) as [Fx|]; simpl.
          * rewrite <- (rel_lt_scale b) by auto. f_equal. ring.
          * destruct (s_lasttf s) as [l|]; simpl; auto. rewrite <- (rel_lt_scale b) by auto. f_equal. ring.
        + rewrite (re_ext _ _ _ _ _ _ Re), (re_thermotol _ _ _ _ _ _ Re), (sr_lastmh _ _ S), Emh.
          destruct (c_ext c) as [Fx|]; simpl; auto. destruct (s_lastmh s) as [[l|]|]; simpl; auto; destruct mh as [x|]; simpl; auto.
          rewrite <- (rel_lt_scale a) by auto. f_equal. ring.
        + rewrite (hr_str _ _ Hr), (hr_Acg _ _ Hr), EG, (re_pentol _ _ _ _ _ _ Re), (re_forcetol _ _ _ _ _ _ Re), MP, Epen.
          assert (E1 : oltb_inf K' (option_map (Rmult a) maxdu) (a * c_pentol c) = oltb_inf K maxdu (c_pentol c)).
          { destruct maxdu; simpl; auto. apply ltb_scale; auto. }
          rewrite E1, !ltb_scale, ltb_0scale by auto.
          assert (Ha2 : 0 < a * a) by (apply Rmult_lt_0_compat; auto).
          assert (E2 : Rltb (if Nat.ltb O (h_Acg h) then a * a * new_G K h / INR (h_Acg h) else a * a * new_G K h)
                            (a * c_pentol c * (a * c_pentol c))
                     = Rltb (if Nat.ltb O (h_Acg h) then new_G K h / INR (h_Acg h) else new_G K h) (c_pentol c * c_pentol c)).
          { transitivity (Rltb (a * a * (if Nat.ltb O (h_Acg h) then new_G K h / INR (h_Acg h) else new_G K h))
                               (a * a * (c_pentol c * c_pentol c))); [|apply ltb_scale; auto].
            f_equal; [|ring]. destruct (Nat.ltb O (h_Acg h)); auto. unfold Rdiv. ring. }
          rewrite E2. reflexivity.
    Qed.
  End Second.

  Lemma iter_sim s s' : srel s s' -> rrel frel (iter K c s) (iter K' c' s').
  Proof.
    intros S. unfold iter. pose proof (first_half_sim s s' S) as H.
    destruct (first_half K c s) as [h|e], (first_half K' c' s') as [h'|e']; simpl in H; try contradiction; simpl; auto.
    apply second_half_sim; auto.
  Qed.

  Lemma energy_sim s s' : srel s s' -> energy K' c' s' = a * b * energy K c s.
  Proof.
    intros S. unfold energy.
    rewrite (rsum_pull (a * b) (fun p => bmul K (c_slice c p) (s_f s p * s_u s p))).
    - simpl. field.
    - intros p. rewrite (re_slice _ _ _ _ _ _ Re), (sr_f _ _ S), (sr_u _ _ S), <- bmul_pull. unfold pull.
      simpl. f_equal. ring.
  Qed.

  Lemma converged_sim fu fu' : frel fu fu' ->
    result_related a b sh pi (converged_result K c fu) (converged_result K' c' fu').
  Proof.
    intros F. pose proof (fr_state _ _ F) as S. pose proof (fr_half _ _ F) as Hh.
    constructor; unfold converged_result; cbn [x_x x_jac x_active x_plastic x_fun x_offset x_success x_message x_nit x_nfev x_maxpen x_maxpres x_str x_tau].
    - intros p. now rewrite (sr_u _ _ S).
    - intros p. rewrite (sr_f _ _ S). unfold pull. simpl. ring.
    - intros p. rewrite (sr_str _ _ S). destruct (is_mix (s_str (fu_state fu))).
      + rewrite comp_pull, (hr_c _ _ Hh). unfold pullb.
        destruct (comp c (pi p)) eqn:EC; simpl; [|reflexivity].
        rewrite (hr_g _ _ Hh) by exact EC. unfold pull. now rewrite ltb_scale0.
      + now rewrite (hr_c _ _ Hh).
    - rewrite re_hard'. destruct (c_hard c); simpl; auto. f_equal. funext.
      rewrite comp_pull. destruct (comp c (pi x)) eqn:EC; simpl; [|reflexivity].
      rewrite (hr_g _ _ Hh) by exact EC. unfold pull. now rewrite ltb_scale0.
    - apply energy_sim; auto.
    - apply (sr_off _ _ S).
    - reflexivity.
    - reflexivity.
    - apply (sr_nit _ _ S).
    - apply (sr_nfev _ _ S).
    - apply (fr_maxpen _ _ F).
    - apply (fr_maxpres _ _ F).
    - apply (sr_str _ _ S).
    - apply (sr_tau _ _ S).
  Qed.
  Lemma failed_sim n fu fu' : frel fu fu' ->
    result_related a b sh pi (failed_result K c n fu) (failed_result K' c' n fu').
  Proof.
    intros F. pose proof (fr_state _ _ F) as S. pose proof (fr_half _ _ F) as Hh.
    constructor; unfold failed_result; cbn [x_x x_jac x_active x_plastic x_fun x_offset x_success x_message x_nit x_nfev x_maxpen x_maxpres x_str x_tau]; auto.
    - intros p. now rewrite (sr_u _ _ S).
    - intros p. rewrite (sr_f _ _ S). unfold pull. simpl. ring.
    - intros p. now rewrite (hr_c _ _ Hh).
    - apply energy_sim; auto.
    - apply (sr_off _ _ S).
    - apply (sr_nit _ _ S).
    - apply (sr_nfev _ _ S).
    - apply (fr_maxpen _ _ F).
    - apply (fr_maxpres _ _ F).
    - apply (sr_str _ _ S).
    - apply (sr_tau _ _ S).
  Qed.

  Lemma loop_sim n : forall fuel s s' l l', srel s s' ->
    match l, l' with Some fu, Some fu' => frel fu fu' | None, None => True | _, _ => False end ->
    rrel (result_related a b sh pi) (snd (loop K c n fuel s l)) (snd (loop K' c' n fuel s' l')).
  Proof.
    induction fuel; intros s s' l l' S L; simpl.
    - destruct l, l'; simpl; try contradiction; auto. apply failed_sim; auto.
    - pose proof (iter_sim s s' S) as I.
      destruct (iter K c s) as [fu|e], (iter K' c' s') as [fu'|e']; simpl in I; try contradiction; simpl; auto.
      rewrite (fr_conv _ _ I). destruct (fu_conv fu); simpl; [apply converged_sim; auto|].
      specialize (IHfuel (fu_state fu) (fu_state fu') (Some fu) (Some fu') (fr_state _ _ I) I).
      destruct (loop K c n fuel (fu_state fu) (Some fu)), (loop K' c' n fuel (fu_state fu') (Some fu')). auto.
  Qed.

  Theorem run_sim n : rrel (result_related a b sh pi) (ccg c n) (ccg c' n).
  Proof. apply loop_sim; auto. apply init_sim. Qed.
End Sim.
