(** Transformations of a contact problem and of its result, and the theorem
    that the solver commutes with them (consequences of [CCG_Sim.run_sim]). *)
From Coq Require Import Reals Lra List Bool Arith Lia Permutation FunctionalExtensionality.
From Verif Require Import CCG_Model CCG_Real CCG_Spec CCG_Sim.
Import ListNotations.
Local Open Scope R_scope.

Definition map_outcome {A B} (f : A -> B) (o : result A) : result B :=
  match o with Ok r => Ok (f r) | Raise e => Raise e end.

(** ** Transformed problems *)

Section Transformations.
  Context {P : Type}.

  (** The same problem on a different set of processes. *)
  Definition redistribute (rk : list (list P)) (c : @cfg R P) : @cfg R P :=
    mkCfg rk (c_slice c) (c_masked c) (c_h c) (c_disp c) (c_force c) (c_hard c) (c_ext c)
      (c_offset c) (c_u0 c) (c_f0 c) (c_pentol c) (c_forcetol c) (c_thermotol c)
      (c_mixfac c) (c_mixdec c) (c_minmix c) (c_nsurf c) (c_bisect c).

  (** Heights raised by [d], offset lowered by [d]. *)
  Definition raise_surface (d : R) (c : @cfg R P) : @cfg R P :=
    mkCfg (c_ranks c) (c_slice c) (c_masked c) (fun p => c_h c p + d) (c_disp c) (c_force c)
      (c_hard c) (c_ext c) (c_offset c - d) (c_u0 c) (c_f0 c) (c_pentol c) (c_forcetol c)
      (c_thermotol c) (c_mixfac c) (c_mixdec c) (c_minmix c) (c_nsurf c) (c_bisect c).
  Definition lower_offset (d : R) (r : @sresult R P) : @sresult R P :=
    mkResult (x_x r) (x_jac r) (x_active r) (x_plastic r) (x_fun r) (x_offset r - d)
      (x_success r) (x_message r) (x_nit r) (x_nfev r) (x_maxpen r) (x_maxpres r) (x_str r) (x_tau r).

  (** One old unit of length is [a] new ones, one old unit of force [b] new
      ones; the substrate maps new force numbers to new length numbers. *)
  Definition in_units (a b : R) (c : @cfg R P) : @cfg R P :=
    mkCfg (c_ranks c) (c_slice c) (c_masked c) (fun p => a * c_h c p)
      (fun f p => a * c_disp c (fun q => f q / b) p)
      (fun u p => b * c_force c (fun q => u q / a) p)
      (match c_hard c with
       | None => None
       | Some (HScalar H) => Some (HScalar (b * H))
       | Some (HArray H) => Some (HArray (fun p => b * H p))
       end)
      (option_map (Rmult b) (c_ext c)) (a * c_offset c)
      (option_map (fun u p => a * u p) (c_u0 c)) (option_map (fun f p => b * f p) (c_f0 c))
      (a * c_pentol c) (b * c_forcetol c) (c_thermotol c) (c_mixfac c) (c_mixdec c) (c_minmix c)
      (c_nsurf c)
      (fun g x y => option_map (Rmult a) (c_bisect c (fun z => g (a * z) / b) (x / a) (y / a))).
  Definition result_in_units (a b : R) (r : @sresult R P) : @sresult R P :=
    mkResult (fun p => a * x_x r p) (fun p => b * x_jac r p) (x_active r) (x_plastic r)
      (a * b * x_fun r) (a * x_offset r) (x_success r) (x_message r) (x_nit r) (x_nfev r)
      (a * x_maxpen r) (b * x_maxpres r) (x_str r) (b / a * x_tau r).

  (** Point [p] of the new problem is point [pi p] of the old one. *)
  Definition relabel (pi : P -> P) (c : @cfg R P) : @cfg R P :=
    mkCfg (c_ranks c) (fun p => c_slice c (pi p)) (fun p => c_masked c (pi p)) (fun p => c_h c (pi p))
      (c_disp c) (c_force c)
      (match c_hard c with
       | None => None
       | Some (HScalar H) => Some (HScalar H)
       | Some (HArray H) => Some (HArray (fun p => H (pi p)))
       end)
      (c_ext c) (c_offset c)
      (option_map (fun u p => u (pi p)) (c_u0 c)) (option_map (fun f p => f (pi p)) (c_f0 c))
      (c_pentol c) (c_forcetol c) (c_thermotol c) (c_mixfac c) (c_mixdec c) (c_minmix c)
      (c_nsurf c) (c_bisect c).
  Definition relabel_result (pi : P -> P) (r : @sresult R P) : @sresult R P :=
    mkResult (fun p => x_x r (pi p)) (fun p => x_jac r (pi p)) (fun p => x_active r (pi p))
      (option_map (fun m p => m (pi p)) (x_plastic r)) (x_fun r) (x_offset r) (x_success r)
      (x_message r) (x_nit r) (x_nfev r) (x_maxpen r) (x_maxpres r) (x_str r) (x_tau r).

  Ltac funext := apply functional_extensionality; intro.

  Lemma sim_eq a b sh pi (c c' : @cfg R P) n (F : @sresult R P -> @sresult R P) :
    0 < a -> 0 < b -> related a b sh pi c c' ->
    (forall r r', result_related a b sh pi r r' -> r' = F r) ->
    ccg c' n = map_outcome F (ccg c n).
  Proof.
    intros Ha Hb Re HF. pose proof (run_sim a b sh pi Ha Hb c c' Re n) as H.
    destruct (ccg c n), (ccg c' n); simpl in *; try contradiction; try congruence.
    f_equal. auto.
  Qed.

  Ltac result_eq H :=
    destruct H as [h1 h2 h3 h4 h5 h6 h7 h8 h9 h10 h11 h12 h13 h14];
    match goal with |- ?r' = _ => destruct r' end;
    simpl in *; subst; f_equal.

  Lemma raise_surface_run d c n : offset_control c ->
    ccg (raise_surface d c) n = map_outcome (lower_offset d) (ccg c n).
  Proof.
    intros Hoff. apply (sim_eq 1 1 d (fun p => p)); try lra.
    - constructor; simpl; intros; auto; try ring.
      + rewrite map_id. apply Permutation_refl.
      + transitivity (c_disp c f p); [|ring]. f_equal. funext. ring.
      + transitivity (c_disp c t p); [|field]. f_equal. funext. ring.
      + transitivity (c_force c u p); [|ring]. f_equal. funext. ring.
      + destruct (c_hard c) as [[H|H]|]; auto; do 2 f_equal; [ring|funext; ring].
      + destruct (c_ext c); simpl; auto. f_equal. ring.
      + destruct (c_u0 c); simpl; auto. f_equal. funext. ring.
      + destruct (c_f0 c); simpl; auto. f_equal. funext. ring.
      + rewrite !Rmult_1_l. replace g' with g by (funext; specialize (H x0); rewrite !Rmult_1_l in H; auto).
        destruct (c_bisect c g x y); simpl; auto. f_equal. ring.
      + contradiction.
    - intros r r' H. unfold lower_offset. result_eq H; try ring; try (funext; auto; try rewrite h1; try rewrite h2; ring).
      + destruct (x_plastic r); reflexivity.
      + field.
  Qed.

  Lemma in_units_run a b c n : 0 < a -> 0 < b -> linear (c_disp c) ->
    ccg (in_units a b c) n = map_outcome (result_in_units a b) (ccg c n).
  Proof.
    intros Ha Hb [_ Hl]. apply (sim_eq a b 0 (fun p => p)); auto.
    - constructor; simpl; intros; auto; try ring.
      + rewrite map_id. apply Permutation_refl.
      + do 2 f_equal. funext. field. lra.
      + transitivity (a * c_disp c (fun q => a / b * t q) p).
        * do 2 f_equal. funext. field. lra.
        * rewrite Hl. ring.
      + do 2 f_equal. funext. field. lra.
      + replace (a * x / a) with x by (field; lra). replace (a * y / a) with y by (field; lra).
        do 2 f_equal. funext. rewrite H. field. lra.
    - intros r r' H. unfold result_in_units. result_eq H; try ring; try (funext; auto).
      destruct (x_plastic r); reflexivity.
  Qed.

  Lemma relabel_run pi c n : Permutation (map pi (grid c)) (grid c) ->
    (forall f p, c_disp c (fun q => f (pi q)) p = c_disp c f (pi p)) ->
    (forall u p, c_force c (fun q => u (pi q)) p = c_force c u (pi p)) ->
    ccg (relabel pi c) n = map_outcome (relabel_result pi) (ccg c n).
  Proof.
    intros Hp Hd Hf. apply (sim_eq 1 1 0 pi); try lra.
    - constructor; simpl; intros; auto; try ring.
      + rewrite <- Hd, Rmult_1_l. f_equal. funext. ring.
      + transitivity (c_disp c t (pi p)); [|field]. rewrite <- Hd. f_equal. funext. ring.
      + rewrite <- Hf, Rmult_1_l. f_equal. funext. ring.
      + destruct (c_hard c) as [[H|H]|]; auto; do 2 f_equal; [ring|funext; ring].
      + destruct (c_ext c); simpl; auto. f_equal. ring.
      + destruct (c_u0 c); simpl; auto. f_equal. funext. ring.
      + destruct (c_f0 c); simpl; auto. f_equal. funext. ring.
      + rewrite !Rmult_1_l. replace g' with g by (funext; specialize (H x0); rewrite !Rmult_1_l in H; auto).
        destruct (c_bisect c g x y); simpl; auto. f_equal. ring.
    - intros r r' H. unfold relabel_result. result_eq H; try ring; try (funext; auto; try rewrite h1; try rewrite h2; ring).
      field.
  Qed.

  (** If the problem itself is symmetric, so is the solution. *)
  Lemma symmetric_run pi c n r : Permutation (map pi (grid c)) (grid c) ->
    (forall f p, c_disp c (fun q => f (pi q)) p = c_disp c f (pi p)) ->
    (forall u p, c_force c (fun q => u (pi q)) p = c_force c u (pi p)) ->
    relabel pi c = c -> ccg c n = Ok r ->
    forall p, x_jac r (pi p) = x_jac r p /\ x_x r (pi p) = x_x r p /\ x_active r (pi p) = x_active r p.
  Proof.
    intros Hp Hd Hf Hs Hr p. pose proof (relabel_run pi c n Hp Hd Hf) as H.
    rewrite Hs, Hr in H. simpl in H. injection H as H.
    assert (E1 := f_equal (fun r => x_jac r p) H). assert (E2 := f_equal (fun r => x_x r p) H).
    assert (E3 := f_equal (fun r => x_active r p) H). simpl in *. auto.
  Qed.

  (** ** Decomposition: the whole trace is the same *)
  Section Decomposition.
    Variable rk : list (list P).
    Variable c : @cfg R P.
    Hypothesis Hrk : Permutation (concat rk) (grid c).
    Notation K := (ROps P).

    Lemma rsum_re : rsum K rk = rsum K (c_ranks c).
    Proof. funext. rewrite !rsum_lsum. apply lsum_perm, Hrk. Qed.
    Lemma rcount_re : rcount (P:=P) rk = rcount (c_ranks c).
    Proof.
      funext. rewrite !rcount_length. apply Permutation_length, filter_perm, Hrk.
    Qed.
    Lemma rmax_re : rmax K rk = rmax K (c_ranks c).
    Proof.
      funext. funext. eapply is_max_unique; [apply rmax_is_max|].
      assert (Hp := filter_perm x _ _ Hrk). pose proof (rmax_is_max (c_ranks c) x x0) as H.
      destruct (rmax K (c_ranks c) x x0); simpl in *.
      - destruct H as [H1 [q [Hq E]]]. split.
        + intros p Hpp. apply H1. eapply Permutation_in; eauto.
        + exists q. split; auto. eapply Permutation_in; [apply Permutation_sym|]; eauto.
      - unfold grid in Hp. rewrite H in Hp. apply Permutation_sym, Permutation_nil in Hp. auto.
    Qed.
    Lemma rmin_re : rmin K rk = rmin K (c_ranks c).
    Proof.
      funext. funext. eapply is_min_unique; [apply rmin_is_min|].
      assert (Hp := filter_perm x _ _ Hrk). pose proof (rmin_is_min (c_ranks c) x x0) as H.
      destruct (rmin K (c_ranks c) x x0); simpl in *.
      - destruct H as [H1 [q [Hq E]]]. split.
        + intros p Hpp. apply H1. eapply Permutation_in; eauto.
        + exists q. split; auto. eapply Permutation_in; [apply Permutation_sym|]; eauto.
      - unfold grid in Hp. rewrite H in Hp. apply Permutation_sym, Permutation_nil in Hp. auto.
    Qed.

    Lemma iter_re s : iter K (redistribute rk c) s = iter K c s.
    Proof.
      unfold iter, first_half, do_cg, cg_half, mix_half, second_half, max_pres, pad_pres, new_force,
        new_str, new_delta, any_nc, adjust_force, clip_flow, cg_set, contact_set, mask_flowing, nc_set, comp, pad.
      cbn [redistribute c_ranks c_slice c_masked c_h c_disp c_force c_hard c_ext c_offset c_u0 c_f0 c_pentol
           c_forcetol c_thermotol c_mixfac c_mixdec c_minmix c_nsurf c_bisect].
      rewrite rsum_re, rcount_re, rmax_re, rmin_re. reflexivity.
    Qed.
    Lemma energy_re s : energy K (redistribute rk c) s = energy K c s.
    Proof. unfold energy. simpl. now rewrite rsum_re. Qed.

    Lemma loop_re n : forall fuel s l, loop K (redistribute rk c) n fuel s l = loop K c n fuel s l.
    Proof.
      induction fuel; intros s l; simpl.
      - destruct l; auto. unfold failed_result. now rewrite energy_re.
      - rewrite iter_re. destruct (iter K c s) as [fu|]; auto.
        unfold converged_result. rewrite energy_re. destruct (fu_conv fu); auto. now rewrite IHfuel.
    Qed.
    Lemma redistribute_trace n : run_trace K (redistribute rk c) n = run_trace K c n.
    Proof. apply loop_re. Qed.
  End Decomposition.
End Transformations.
