(** Real-number instance of the solver model and basic facts about the
    reductions. *)
From Coq Require Import Reals Lra List Bool Arith Lia Permutation FunctionalExtensionality.
From Verif Require Import CCG_Model.
Import ListNotations.
Local Open Scope R_scope.

Arguments comp : simpl never.
Arguments pad : simpl never.
Arguments cg_set : simpl never.
Arguments contact_set : simpl never.
Arguments rsum : simpl never.
Arguments rcount : simpl never.
Arguments rmax : simpl never.
Arguments rmin : simpl never.
Arguments mask_tensile : simpl never.
Arguments mask_flowing : simpl never.
Arguments nc_set : simpl never.
Arguments any_nc : simpl never.
Arguments new_force : simpl never.
Arguments cg_half : simpl never.
Arguments mix_half : simpl never.
Arguments bmul : simpl never.

Definition Rltb (x y : R) : bool := if Rlt_dec x y then true else false.
Definition Reqb (x y : R) : bool := if Req_EM_T x y then true else false.

Definition ROps (P : Type) : Ops R P :=
  mkOps R P 0 1 Rplus Rminus Rmult Ropp Rdiv Rltb Reqb INR (fun f => f).

Lemma Rltb_true x y : Rltb x y = true <-> x < y.
Proof. unfold Rltb. destruct (Rlt_dec x y); split; intros; auto; discriminate. Qed.
Lemma Rltb_false x y : Rltb x y = false <-> y <= x.
Proof. unfold Rltb. destruct (Rlt_dec x y); split; intros; auto; try discriminate; lra. Qed.
Lemma Reqb_true x y : Reqb x y = true <-> x = y.
Proof. unfold Reqb. destruct (Req_EM_T x y); split; intros; auto; discriminate. Qed.
Lemma Reqb_false x y : Reqb x y = false <-> x <> y.
Proof. unfold Reqb. destruct (Req_EM_T x y); split; intros; auto; try discriminate; contradiction. Qed.

Lemma Rltb_ext a b x y : (a < b <-> x < y) -> Rltb a b = Rltb x y.
Proof.
  intros H. destruct (Rltb a b) eqn:E; symmetry.
  - apply Rltb_true, H, Rltb_true, E.
  - apply Rltb_false. apply Rltb_false in E. destruct (Rle_or_lt y x); auto.
    apply H in H0. lra.
Qed.

Section Basics.
  Context {P : Type}.
  Notation K := (ROps P).

  Lemma leb_true x y : leb K x y = true <-> x <= y.
  Proof. unfold leb; simpl. rewrite negb_true_iff, Rltb_false. tauto. Qed.
  Lemma leb_false x y : leb K x y = false <-> y < x.
  Proof. unfold leb; simpl. rewrite negb_false_iff, Rltb_true. tauto. Qed.

  Lemma absF_Rabs x : absF K x = Rabs x.
  Proof.
    unfold absF; simpl. destruct (Rltb x 0) eqn:E.
    - apply Rltb_true in E. rewrite Rabs_left; lra.
    - apply Rltb_false in E. rewrite Rabs_right; lra.
  Qed.
  Lemma maxF_Rmax x y : maxF K x y = Rmax x y.
  Proof.
    unfold maxF; simpl. destruct (Rltb x y) eqn:E.
    - apply Rltb_true in E. rewrite Rmax_right; lra.
    - apply Rltb_false in E. rewrite Rmax_left; lra.
  Qed.
  Lemma minF_Rmin x y : minF K x y = Rmin x y.
  Proof.
    unfold minF; simpl. destruct (Rltb y x) eqn:E.
    - apply Rltb_true in E. rewrite Rmin_right; lra.
    - apply Rltb_false in E. rewrite Rmin_left; lra.
  Qed.

  (** Sum over a list of points. *)
  Definition lsum (l : list P) (phi : P -> R) : R :=
    fold_right Rplus 0 (map phi l).

  Lemma lsum_app l1 l2 phi : lsum (l1 ++ l2) phi = lsum l1 phi + lsum l2 phi.
  Proof. unfold lsum. induction l1; simpl; [lra|rewrite IHl1; lra]. Qed.

  Lemma lsum_ext l phi psi : (forall p, In p l -> phi p = psi p) -> lsum l phi = lsum l psi.
  Proof.
    unfold lsum; induction l; simpl; intros; auto.
    rewrite H by auto. rewrite IHl; auto.
  Qed.
  Lemma lsum_plus l phi psi : lsum l (fun p => phi p + psi p) = lsum l phi + lsum l psi.
  Proof. unfold lsum; induction l; simpl; lra. Qed.
  Lemma lsum_scal l k phi : lsum l (fun p => k * phi p) = k * lsum l phi.
  Proof. unfold lsum; induction l; simpl; lra. Qed.
  Lemma lsum_opp l phi : lsum l (fun p => - phi p) = - lsum l phi.
  Proof. unfold lsum; induction l; simpl; lra. Qed.
  Lemma lsum_zero l phi : (forall p, In p l -> phi p = 0) -> lsum l phi = 0.
  Proof.
    unfold lsum; induction l; simpl; intros; auto.
    rewrite H by auto. rewrite IHl; auto; lra.
  Qed.
  Lemma lsum_le l phi psi : (forall p, In p l -> phi p <= psi p) -> lsum l phi <= lsum l psi.
  Proof.
    unfold lsum; induction l; simpl; intros; [lra|].
    assert (phi a <= psi a) by auto. assert (fold_right Rplus 0 (map phi l) <= fold_right Rplus 0 (map psi l)) by auto. lra.
  Qed.
  Lemma lsum_nonneg l phi : (forall p, In p l -> 0 <= phi p) -> 0 <= lsum l phi.
  Proof.
    intros H. rewrite <- (lsum_zero l (fun _ => 0)) by auto. apply lsum_le; auto.
  Qed.
  Lemma lsum_nonneg_ge l phi q : (forall p, In p l -> 0 <= phi p) -> In q l -> phi q <= lsum l phi.
  Proof.
    induction l; simpl; intros H Hq; [tauto|].
    unfold lsum; simpl. fold (lsum l phi).
    assert (0 <= phi a) by auto. assert (0 <= lsum l phi) by (apply lsum_nonneg; auto).
    destruct Hq as [->|Hq]; [lra|]. specialize (IHl (fun p Hp => H p (or_intror Hp)) Hq). lra.
  Qed.
  Lemma lsum_nonneg_eq0 l phi : (forall p, In p l -> 0 <= phi p) -> lsum l phi = 0 ->
    forall p, In p l -> phi p = 0.
  Proof.
    intros H E p Hp. assert (phi p <= lsum l phi) by (apply lsum_nonneg_ge; auto).
    specialize (H p Hp). lra.
  Qed.
  Lemma lsum_perm l l' phi : Permutation l l' -> lsum l phi = lsum l' phi.
  Proof. unfold lsum. induction 1; simpl; lra. Qed.
  Lemma lsum_map {Q} (f : Q -> P) l phi : lsum (map f l) phi = fold_right Rplus 0 (map (fun q => phi (f q)) l).
  Proof. unfold lsum. now rewrite map_map. Qed.

  Lemma sum_list_R l : sum_list K l = fold_right Rplus 0 l.
  Proof. reflexivity. Qed.

  Lemma rsum_lsum rk phi : rsum K rk phi = lsum (concat rk) phi.
  Proof.
    unfold rsum, sum_list. simpl. induction rk; simpl; auto.
    rewrite IHrk. rewrite lsum_app. reflexivity.
  Qed.

  Lemma rcount_length (rk : list (list P)) m : rcount rk m = length (filter m (concat rk)).
  Proof.
    unfold rcount. induction rk; simpl; auto.
    rewrite IHrk, filter_app, app_length. reflexivity.
  Qed.

  Lemma rcount_pos (rk : list (list P)) m : Nat.ltb O (rcount rk m) = true <-> exists p, In p (concat rk) /\ m p = true.
  Proof.
    rewrite rcount_length, Nat.ltb_lt. split.
    - intros H. destruct (filter m (concat rk)) as [|p l] eqn:E; simpl in H; [lia|].
      exists p. apply filter_In. rewrite E. now left.
    - intros [p Hp]. apply filter_In in Hp. destruct (filter m (concat rk)); simpl in *; [tauto|lia].
  Qed.
  Lemma rcount_zero (rk : list (list P)) m : Nat.ltb O (rcount rk m) = false <-> forall p, In p (concat rk) -> m p = false.
  Proof.
    split.
    - intros H p Hp. destruct (m p) eqn:E; auto.
      assert (Nat.ltb O (rcount rk m) = true) by (apply rcount_pos; eauto). congruence.
    - intros H. destruct (Nat.ltb O (rcount rk m)) eqn:E; auto.
      apply rcount_pos in E. destruct E as [p [Hp E]]. rewrite H in E; auto.
  Qed.

  (** Maxima. *)
  Definition lopt (op : R -> R -> R) (l : list P) (phi : P -> R) : option R :=
    fold_right (fun p => opt_op op (Some (phi p))) None l.

  Definition is_max (l : list P) (phi : P -> R) (o : option R) : Prop :=
    match o with
    | None => l = []
    | Some m => (forall p, In p l -> phi p <= m) /\ exists p, In p l /\ phi p = m
    end.
  Definition is_min (l : list P) (phi : P -> R) (o : option R) : Prop :=
    match o with
    | None => l = []
    | Some m => (forall p, In p l -> m <= phi p) /\ exists p, In p l /\ phi p = m
    end.

  Lemma is_max_unique l phi o o' : is_max l phi o -> is_max l phi o' -> o = o'.
  Proof.
    destruct o, o'; simpl; auto.
    - intros [H1 [p [Hp E1]]] [H2 [q [Hq E2]]]. f_equal. specialize (H1 q Hq). specialize (H2 p Hp). lra.
    - intros [H1 [p [Hp E1]]] ->. destruct Hp.
    - intros -> [H1 [p [Hp E1]]]. destruct Hp.
  Qed.
  Lemma is_min_unique l phi o o' : is_min l phi o -> is_min l phi o' -> o = o'.
  Proof.
    destruct o, o'; simpl; auto.
    - intros [H1 [p [Hp E1]]] [H2 [q [Hq E2]]]. f_equal. specialize (H1 q Hq). specialize (H2 p Hp). lra.
    - intros [H1 [p [Hp E1]]] ->. destruct Hp.
    - intros -> [H1 [p [Hp E1]]]. destruct Hp.
  Qed.

  Lemma is_max_app l1 l2 phi o1 o2 : is_max l1 phi o1 -> is_max l2 phi o2 ->
    is_max (l1 ++ l2) phi (opt_op (maxF K) o1 o2).
  Proof.
    destruct o1 as [m1|], o2 as [m2|]; cbn [opt_op]; intros H1 H2; simpl in H1, H2; subst; simpl; auto.
    - rewrite maxF_Rmax. destruct H1 as [H1 [p1 [I1 E1]]], H2 as [H2 [p2 [I2 E2]]]. split.
      + intros p Hp. apply in_app_or in Hp. destruct Hp as [Hp|Hp].
        * specialize (H1 p Hp). pose proof (Rmax_l m1 m2). lra.
        * specialize (H2 p Hp). pose proof (Rmax_r m1 m2). lra.
      + unfold Rmax. destruct (Rle_dec m1 m2).
        * exists p2. split; auto. apply in_or_app; auto.
        * exists p1. split; auto. apply in_or_app; auto.
    - rewrite app_nil_r. auto.
  Qed.
  Lemma is_min_app l1 l2 phi o1 o2 : is_min l1 phi o1 -> is_min l2 phi o2 ->
    is_min (l1 ++ l2) phi (opt_op (minF K) o1 o2).
  Proof.
    destruct o1 as [m1|], o2 as [m2|]; cbn [opt_op]; intros H1 H2; simpl in H1, H2; subst; simpl; auto.
    - rewrite minF_Rmin. destruct H1 as [H1 [p1 [I1 E1]]], H2 as [H2 [p2 [I2 E2]]]. split.
      + intros p Hp. apply in_app_or in Hp. destruct Hp as [Hp|Hp].
        * specialize (H1 p Hp). pose proof (Rmin_l m1 m2). lra.
        * specialize (H2 p Hp). pose proof (Rmin_r m1 m2). lra.
      + unfold Rmin. destruct (Rle_dec m1 m2).
        * exists p1. split; auto. apply in_or_app; auto.
        * exists p2. split; auto. apply in_or_app; auto.
    - rewrite app_nil_r. auto.
  Qed.

  Lemma is_max_single p phi : is_max [p] phi (Some (phi p)).
  Proof. simpl. split; [intros q [->|[]]; lra|eauto]. Qed.
  Lemma is_min_single p phi : is_min [p] phi (Some (phi p)).
  Proof. simpl. split; [intros q [->|[]]; lra|eauto]. Qed.

  Lemma rmax_is_max rk m phi : is_max (filter m (concat rk)) phi (rmax K rk m phi).
  Proof.
    unfold rmax, ropt. induction rk as [|l rk IH]; simpl; auto.
    rewrite filter_app. apply is_max_app; auto. clear.
    induction (filter m l) as [|p l' IH]; simpl; auto.
    apply (is_max_app [p] l' phi (Some (phi p))); auto. apply is_max_single.
  Qed.
  Lemma rmin_is_min rk m phi : is_min (filter m (concat rk)) phi (rmin K rk m phi).
  Proof.
    unfold rmin, ropt. induction rk as [|l rk IH]; simpl; auto.
    rewrite filter_app. apply is_min_app; auto. clear.
    induction (filter m l) as [|p l' IH]; simpl; auto.
    apply (is_min_app [p] l' phi (Some (phi p))); auto. apply is_min_single.
  Qed.

  Lemma rmax_lt rk m phi y : oltb_inf K (rmax K rk m phi) y = true <->
    forall p, In p (concat rk) -> m p = true -> phi p < y.
  Proof.
    pose proof (rmax_is_max rk m phi) as H. destruct (rmax K rk m phi) as [v|]; simpl in *.
    - rewrite Rltb_true. destruct H as [H [q [Hq E]]]. split.
      + intros Hv p Hp Hm. assert (phi p <= v) by (apply H; apply filter_In; auto). lra.
      + intros Hall. apply filter_In in Hq. destruct Hq. subst v. auto.
    - split; auto. intros _ p Hp Hm. assert (In p (filter m (concat rk))) by (apply filter_In; auto).
      rewrite H in H0. destruct H0.
  Qed.

  Lemma rmax_ge rk m phi p : In p (concat rk) -> m p = true ->
    exists v, rmax K rk m phi = Some v /\ phi p <= v.
  Proof.
    intros Hp Hm. pose proof (rmax_is_max rk m phi) as H.
    assert (In p (filter m (concat rk))) by (apply filter_In; auto).
    destruct (rmax K rk m phi) as [v|]; simpl in *.
    - exists v. split; auto. apply H; auto.
    - rewrite H in H0. destruct H0.
  Qed.

  Lemma bmul_mult b x : bmul K b x = (if b then 1 else 0) * x.
  Proof. unfold bmul; destruct b; simpl; lra. Qed.
End Basics.
