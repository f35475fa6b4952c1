(** * Lemmas about the periodic half-space model *)

From Coq Require Import Reals ZArith Lia Lra List Arith Bool.
From Coquelicot Require Import Complex Coquelicot.
From Verif Require Import Py FFT_Base HalfSpace_Model.
Import ListNotations.
Local Open Scope R_scope.

Lemma Req_bool_spec : forall x y, reflect (x = y) (Req_bool x y).
Proof. intros. unfold Req_bool. destruct (Req_EM_T x y); constructor; assumption. Qed.

Lemma bind_Ret : forall A B (m : res A) (k : A -> res B) b,
  bind m k = Ret b -> exists a, m = Ret a /\ k a = Ret b.
Proof. intros A B [a|e] k b H; simpl in H; [eauto|discriminate]. Qed.

(** ** The constructor *)

Lemma extend_sizes_Ret : forall d sizes l, extend_sizes d sizes = Ret l ->
  l = map (fun i => nth (Nat.min i (length sizes - 1)) sizes 0) (seq 0 d)
  /\ (d <> 0%nat -> sizes <> []).
Proof.
  intros d [|x sizes] l H; destruct d; simpl in H; try discriminate;
    injection H as H; subst; split; try reflexivity; intros; congruence.
Qed.

Lemma new_inv : forall a h, new a = Ret h ->
  (length (a_grid a) = 1%nat \/ length (a_grid a) = 2%nat)
  /\ (a_q0 a = None \/ a_thick a = None)
  /\ (forall n, In n (a_grid a) -> n <> 0%nat)
  /\ a_sizes a <> []
  /\ 1 - a_poisson a ^ 2 <> 0
  /\ (forall g, a_engine a = Some g -> g = a_grid a)
  /\ h = {| h_grid := a_grid a;
            h_sizes := map (fun i => nth (Nat.min i (length (a_sizes a) - 1)) (a_sizes a) 0)
                         (seq 0 (length (a_grid a)));
            h_steps := map (fun p => fst p / INR (snd p))
              (combine (map (fun i => nth (Nat.min i (length (a_sizes a) - 1)) (a_sizes a) 0)
                         (seq 0 (length (a_grid a)))) (a_grid a));
            h_young := a_young a; h_poisson := a_poisson a;
            h_Estar := a_young a / (1 - a_poisson a ^ 2);
            h_q0 := a_q0 a; h_thick := a_thick a |}.
Proof.
  intros a h H. unfold new, new_on in H.
  destruct (Nat.eqb_spec (length (a_grid a)) 1) as [E1|E1];
  destruct (Nat.eqb_spec (length (a_grid a)) 2) as [E2|E2]; cbn [orb negb] in H;
    try discriminate; try lia;
  destruct (match a_q0 a with Some _ => match a_thick a with Some _ => true | None => false end
            | None => false end) eqn:Eq; try discriminate;
  apply bind_Ret in H; destruct H as [sizes [Hs H]];
  apply bind_Ret in H; destruct H as [steps [Ht H]];
  destruct (Req_bool_spec (1 - a_poisson a ^ 2) 0) as [Ez|Ez]; try discriminate;
  destruct (match a_engine a with Some g => negb (shape_eqb g (a_grid a)) | None => false end) eqn:Ee;
    try discriminate;
  apply extend_sizes_Ret in Hs; destruct Hs as [Hs Hs'];
  unfold compute_steps in Ht;
  destruct (existsb (fun n => Nat.eqb n 0) (a_grid a)) eqn:Ex; try discriminate;
  injection Ht as Ht; injection H as H;
  (split; [auto|]);
  (split; [destruct (a_q0 a), (a_thick a); auto; discriminate|]);
  (split; [intros n Hn Z; subst n;
           assert (existsb (fun n => Nat.eqb n 0) (a_grid a) = true)
             by (apply existsb_exists; exists 0%nat; auto); congruence|]);
  (split; [apply Hs'; lia|]);
  (split; [exact Ez|]);
  (split; [intros g Hg; rewrite Hg in Ee; apply negb_false_iff in Ee;
           apply shape_eqb_spec in Ee; exact Ee|]);
  subst; reflexivity.
Qed.

Lemma construct_inv : forall a s, construct a = Ret s ->
  new a = Ret (s_hs s)
  /\ compute_greens_function (s_hs s) (0, 0)%nat (fourier_pts (a_grid a)) = Ret (s_gf s)
  /\ s_ss s = compute_surface_stiffness (s_gf s).
Proof.
  intros a s H. unfold construct, construct_on in H.
  apply bind_Ret in H. destruct H as [h [Hn H]].
  apply bind_Ret in H. destruct H as [gf [Hg H]].
  injection H as H. subst s. simpl. auto.
Qed.

Definition pos_args (a : args) : Prop :=
  (forall s, In s (a_sizes a) -> 0 < s)
  /\ 0 < a_young a
  /\ -1 < a_poisson a < 1
  /\ (forall t, a_thick a = Some t -> 0 < t /\ a_poisson a < 1 / 2)
  /\ (forall q, a_q0 a = Some q -> 0 <= q).

Lemma nth_In_min : forall (l : list R) i, l <> [] ->
  In (nth (Nat.min i (length l - 1)) l 0) l.
Proof.
  intros l i H. apply nth_In. destruct l; [congruence|]. simpl. lia.
Qed.

Lemma grid_pos : forall a h, new a = Ret h -> (0 < nx h)%nat /\ (0 < ny h)%nat.
Proof.
  intros a h H. apply new_inv in H. destruct H as [Hd [_ [Hg [_ [_ [_ E]]]]]].
  subst h. unfold nx, ny. simpl.
  destruct (a_grid a) as [|n1 [|n2 l]]; simpl in *.
  - destruct Hd; lia.
  - split; [|lia]. specialize (Hg n1 (or_introl eq_refl)). lia.
  - pose proof (Hg n1 (or_introl eq_refl)).
    pose proof (Hg n2 (or_intror (or_introl eq_refl))). lia.
Qed.

Lemma sizes_pos : forall a h, new a = Ret h -> pos_args a ->
  0 < sx h /\ 0 < sy h.
Proof.
  intros a h H Hp. apply new_inv in H.
  destruct H as [Hd [_ [_ [Hs [_ [_ E]]]]]]. destruct Hp as [Hp _].
  subst h. unfold sx, sy. simpl.
  destruct Hd as [Hd|Hd]; rewrite Hd; cbn -[Nat.min nth]; cbn [nth];
    split; try lra; apply Hp; apply nth_In_min; assumption.
Qed.

Lemma Estar_pos : forall a h, new a = Ret h -> pos_args a -> 0 < h_Estar h.
Proof.
  intros a h H Hp. apply new_inv in H.
  destruct H as [_ [_ [_ [_ [_ [_ E]]]]]]. destruct Hp as [_ [Hy [Hn _]]].
  subst h. simpl. apply Rdiv_lt_0_compat; [assumption|]. nra.
Qed.

(** [area_per_pt] is the product of the sizes over the number of points. *)
Lemma area_eq : forall a h, new a = Ret h ->
  area_per_pt h = sx h * sy h / npts (nx h) (ny h).
Proof.
  intros a h H. apply new_inv in H.
  destruct H as [Hd [_ [_ [_ [_ [_ E]]]]]].
  subst h. unfold area_per_pt, npts, sx, sy, nx, ny. simpl.
  destruct (a_grid a) as [|n1 [|n2 [|? ?]]]; simpl in *; destruct Hd; try lia;
    unfold Rdiv; rewrite ?Rmult_1_r; ring.
Qed.

Lemma npts_prod_pos : forall a h, new a = Ret h -> 0 < npts (nx h) (ny h).
Proof. intros a h H. apply grid_pos in H. apply npts_pos; apply H. Qed.

Lemma area_pos : forall a h, new a = Ret h -> pos_args a -> 0 < area_per_pt h.
Proof.
  intros a h H Hp. rewrite (area_eq a h H).
  pose proof (sizes_pos a h H Hp). pose proof (npts_prod_pos a h H).
  apply Rdiv_lt_0_compat; [apply Rmult_lt_0_compat; tauto|assumption].
Qed.

(** ** Parity of the Green's function *)

Lemma qcoord_neg : forall n s k, (k < n)%nat -> qcoord n s (neg n k) = qcoord n s k.
Proof.
  intros n s k H. destruct (Nat.eq_dec k 0) as [E|E].
  - subst. rewrite neg_0 by lia. reflexivity.
  - rewrite neg_pos by lia. unfold qcoord.
    pose proof (Nat.div_mod n 2 ltac:(lia)) as D.
    pose proof (Nat.mod_upper_bound n 2 ltac:(lia)).
    destruct (Nat.leb_spec (n - k) (n / 2)); destruct (Nat.leb_spec k (n / 2)); try lia.
    + assert (n - k = k)%nat by lia. congruence.
    + rewrite minus_INR by lia. reflexivity.
    + rewrite minus_INR by lia. unfold Rdiv. ring.
Qed.

Lemma qabs_neg : forall h k l, (k < nx h)%nat -> (l < ny h)%nat ->
  qabs h (neg (nx h) k) (neg (ny h) l) = qabs h k l.
Proof. intros. unfold qabs. rewrite !qcoord_neg by assumption. reflexivity. Qed.

Lemma neg_eq_0 : forall n k, (k < n)%nat -> Nat.eqb (neg n k) 0 = Nat.eqb k 0.
Proof.
  intros n k H. destruct (Nat.eqb_spec k 0) as [E|E].
  - subst. rewrite neg_0 by lia. reflexivity.
  - rewrite neg_pos by lia. apply Nat.eqb_neq. lia.
Qed.

Lemma is_00_neg : forall n m k l, (k < n)%nat -> (l < m)%nat ->
  is_00 (neg n k) (neg m l) = is_00 k l.
Proof. intros. unfold is_00. rewrite !neg_eq_0 by assumption. reflexivity. Qed.

(** The stiffness the code computes in a serial run, written globally.  In
    one dimension the code ignores [thickness]. *)
Definition eff_thick (h : hs) : option R :=
  if Nat.eqb (dim h) 1 then None else h_thick h.

Definition zero_mode (h : hs) : R :=
  match eff_thick h with
  | Some t => thick_q0 (h_young h) t (h_poisson h)
  | None =>
      match h_q0 h with
      | Some q => if Req_bool q 0 then 1 else q
      | None => PI * h_Estar h * (if Nat.eqb (dim h) 1 then qabs h 1 0
                                  else (qabs h 1 0 + qabs h 0 1) / 2)
      end
  end.

Definition sigma (h : hs) (k l : nat) : R :=
  if is_00 k l then zero_mode h
  else PI * h_Estar h * qabs h k l *
       match eff_thick h with
       | Some t => thick_corr (h_poisson h) (qabs h k l * (2 * PI * t))
       | None => 1
       end.

Definition zeroed (h : hs) (k l : nat) : bool :=
  andb (is_00 k l)
       (match h_q0 h with Some q => Req_bool q 0 | None => false end).

Lemma qcoord_nonneg : forall n s k, (k < n)%nat -> 0 < s -> 0 <= qcoord n s k.
Proof.
  intros n s k H Hs. unfold qcoord. destruct (Nat.leb k (n / 2)).
  - apply Rmult_le_pos; [apply pos_INR|left; apply Rinv_0_lt_compat; assumption].
  - apply Rmult_le_pos; [|left; apply Rinv_0_lt_compat; assumption].
    assert (INR k < INR n) by (apply lt_INR; assumption). lra.
Qed.

Lemma qcoord_0 : forall n s, qcoord n s 0 = 0.
Proof. intros. unfold qcoord. simpl. unfold Rdiv. apply Rmult_0_l. Qed.

Lemma qabs_1d : forall h k, (k < nx h)%nat -> 0 < sx h ->
  qabs h k 0 = qcoord (nx h) (sx h) k.
Proof.
  intros. unfold qabs. rewrite qcoord_0.
  replace (_ * _ + 0 * 0) with (Rsqr (qcoord (nx h) (sx h) k)).
  - apply sqrt_Rsqr. apply qcoord_nonneg; assumption.
  - unfold Rsqr. ring.
Qed.

Lemma zero_thick_q0 : forall a h, new a = Ret h ->
  h_q0 h = a_q0 a /\ h_thick h = a_thick a
  /\ (h_q0 h = None \/ h_thick h = None)
  /\ h_grid h = a_grid a /\ h_Estar h = a_young a / (1 - a_poisson a ^ 2)
  /\ h_poisson h = a_poisson a /\ h_young h = a_young a.
Proof.
  intros a h H. apply new_inv in H.
  destruct H as [_ [Hq [_ [_ [_ [_ E]]]]]]. subst h. simpl. tauto.
Qed.

Lemma gf_form : forall a s, construct a = Ret s ->
  (forall x, In x (a_sizes a) -> 0 < x) ->
  forall k l, (k < nx (s_hs s))%nat -> (l < ny (s_hs s))%nat ->
  s_gf s k l = if zeroed (s_hs s) k l then 0 else 1 / sigma (s_hs s) k l.
Proof.
  intros a s H Hsz k l Hk Hl.
  destruct (construct_inv a s H) as [Hn [Hg _]].
  assert (Hsx : 0 < sx (s_hs s)).
  { pose proof (new_inv _ _ Hn) as [Hd [_ [_ [Hs [_ [_ E]]]]]].
    rewrite E. unfold sx. simpl.
    destruct Hd as [Hd|Hd]; rewrite Hd; cbn -[Nat.min nth]; cbn [nth];
    apply Hsz; apply nth_In_min; assumption. }
  destruct (zero_thick_q0 _ _ Hn) as [Eq [Et [Hex [Egr _]]]].
  pose proof (new_inv _ _ Hn) as [Hd _].
  set (h := s_hs s) in *.
  unfold compute_greens_function in Hg.
  destruct (Nat.eqb_spec (dim h) 1) as [D|D].
  - (* one dimension *)
    unfold greens_1d in Hg. apply bind_Ret in Hg. destruct Hg as [v [Hv Hg]].
    change (fst (0%nat, 0%nat)) with 0%nat in *.
    assert (Ey : ny h = 1%nat).
    { unfold ny, dim in *. destruct (h_grid h) as [|n1 [|? ?]]; simpl in *;
        try reflexivity; lia. }
    assert (l = 0%nat) by lia. subst l.
    assert (ET : eff_thick h = None).
    { unfold eff_thick. rewrite D. reflexivity. }
    destruct (h_q0 h) as [q0|] eqn:Q0.
    + assert (Qz : Req_bool q0 0 = false).
      { simpl in Hg. destruct (Req_bool q0 0); [discriminate|reflexivity]. }
      rewrite Qz in *. simpl in Hg. injection Hg as Hg. rewrite <- Hg.
      destruct (Nat.ltb (fst (fourier_pts (a_grid a))) 1); [discriminate|].
      injection Hv as Hv. subst v.
      unfold zeroed, sigma, zero_mode, is_00. rewrite Q0, ET, Qz.
      rewrite andb_false_r. destruct (Nat.eqb_spec k 0); simpl; [reflexivity|].
      rewrite qabs_1d by assumption. rewrite Rmult_1_r. reflexivity.
    + simpl in Hg. injection Hg as Hg. rewrite <- Hg.
      destruct (Nat.ltb_spec (fst (fourier_pts (a_grid a))) 2) as [L|L]; [discriminate|].
      injection Hv as Hv. subst v.
      unfold zeroed, sigma, zero_mode, is_00. rewrite Q0, ET.
      rewrite andb_false_r. rewrite D, Nat.eqb_refl.
      destruct (Nat.eqb_spec k 0) as [K0|K0]; simpl.
      * rewrite qabs_1d; [reflexivity| |assumption].
        unfold fourier_pts in L. simpl in L.
        unfold nx. rewrite Egr.
        destruct (nth 0 (a_grid a) 1%nat) as [|[|m]]; simpl in *; lia.
      * rewrite qabs_1d by assumption. rewrite Rmult_1_r. reflexivity.
  - (* two dimensions *)
    unfold greens_2d in Hg.
    assert (Hf : (fst (fourier_pts (a_grid a)) * snd (fourier_pts (a_grid a)) <> 0)%nat).
    { unfold fourier_pts. cbn [fst snd].
      pose proof (grid_pos a h Hn) as [_ G2]. unfold ny in G2. rewrite Egr in G2.
      nia. }
    destruct (Nat.eqb_spec (fst (fourier_pts (a_grid a)) * snd (fourier_pts (a_grid a))) 0)
      as [Z|_]; [contradiction|].
    cbn [fst snd at_origin] in Hg. change (at_origin (0%nat, 0%nat)) with true in Hg.
    unfold zeroed, sigma, zero_mode, eff_thick.
    destruct (Nat.eqb_spec (dim h) 1); [contradiction|].
    destruct (h_thick h) as [t|] eqn:ET.
    + destruct Hex as [Q0|]; [|discriminate]. rewrite Q0 in *.
      injection Hg as Hg. rewrite <- Hg. rewrite !andb_false_r.
      cbn [Nat.add].
      destruct (is_00 k l); reflexivity.
    + destruct (h_q0 h) as [q0|] eqn:Q0.
      * injection Hg as Hg. rewrite <- Hg. cbn [Nat.add].
        destruct (is_00 k l); cbn [andb];
          destruct (Req_bool q0 0); try reflexivity; rewrite Rmult_1_r; reflexivity.
      * destruct (orb _ _); [discriminate|].
        injection Hg as Hg. rewrite <- Hg. rewrite !andb_false_r. cbn [Nat.add].
        destruct (is_00 k l).
        -- f_equal. field.
        -- rewrite Rmult_1_r. reflexivity.
Qed.

Lemma sigma_neg : forall h k l, (k < nx h)%nat -> (l < ny h)%nat ->
  sigma h (neg (nx h) k) (neg (ny h) l) = sigma h k l.
Proof.
  intros. unfold sigma. rewrite is_00_neg, qabs_neg by assumption. reflexivity.
Qed.

(** Without any assumption on sizes or moduli the arrays are even. *)
Lemma gf_even : forall a s, construct a = Ret s ->
  forall k l, (k < nx (s_hs s))%nat -> (l < ny (s_hs s))%nat ->
  s_gf s (neg (nx (s_hs s)) k) (neg (ny (s_hs s)) l) = s_gf s k l.
Proof.
  intros a s H k l Hk Hl.
  destruct (construct_inv a s H) as [Hn [Hg _]].
  set (h := s_hs s) in *. unfold compute_greens_function in Hg.
  destruct (Nat.eqb (dim h) 1).
  - unfold greens_1d in Hg. apply bind_Ret in Hg. destruct Hg as [v [_ Hg]].
    destruct (andb _ _); [discriminate|]. injection Hg as Hg. rewrite <- Hg.
    rewrite neg_eq_0 by assumption. cbn [fst Nat.add].
    rewrite qcoord_neg by assumption. reflexivity.
  - unfold greens_2d in Hg.
    destruct (Nat.eqb _ 0); [injection Hg as Hg; rewrite <- Hg; reflexivity|].
    change (at_origin (0%nat, 0%nat)) with true in Hg. cbn [fst snd Nat.add] in Hg.
    destruct (h_thick h).
    + injection Hg as Hg. rewrite <- Hg.
      rewrite is_00_neg, qabs_neg by assumption. reflexivity.
    + destruct (h_q0 h).
      * injection Hg as Hg. rewrite <- Hg.
        rewrite is_00_neg, qabs_neg by assumption. reflexivity.
      * destruct (orb _ _); [discriminate|]. injection Hg as Hg. rewrite <- Hg.
        rewrite is_00_neg, qabs_neg by assumption. reflexivity.
Qed.

Definition GF (s : sub) : spectrum := fun k l => RtoC (s_gf s k l).
Definition SS (s : sub) : spectrum := fun k l => RtoC (s_ss s k l).

Lemma GF_Herm : forall a s, construct a = Ret s ->
  Herm (nx (s_hs s)) (ny (s_hs s)) (GF s).
Proof.
  intros a s H k l Hk Hl. unfold GF. rewrite (gf_even a s H) by assumption.
  symmetry. apply Cconj_RtoC.
Qed.

Lemma ss_even : forall a s, construct a = Ret s ->
  forall k l, (k < nx (s_hs s))%nat -> (l < ny (s_hs s))%nat ->
  s_ss s (neg (nx (s_hs s)) k) (neg (ny (s_hs s)) l) = s_ss s k l.
Proof.
  intros a s H k l Hk Hl.
  destruct (construct_inv a s H) as [_ [_ E]]. rewrite E.
  unfold compute_surface_stiffness. rewrite (gf_even a s H) by assumption. reflexivity.
Qed.

Lemma SS_Herm : forall a s, construct a = Ret s ->
  Herm (nx (s_hs s)) (ny (s_hs s)) (SS s).
Proof.
  intros a s H k l Hk Hl. unfold SS. rewrite (ss_even a s H) by assumption.
  symmetry. apply Cconj_RtoC.
Qed.

(** ** Normal forms of the evaluators *)

Lemma irfft2_ext' : forall Nx Ny A B x y,
  (forall k l, A k l = B k l) -> irfft2 Nx Ny A x y = irfft2 Nx Ny B x y.
Proof. intros. apply irfft2_ext. intros. apply H. Qed.

Lemma evaluate_disp_eq : forall a s f, construct a = Ret s ->
  a_shape f = h_grid (s_hs s) ->
  exists u, evaluate_disp s f = Ret u /\ a_shape u = h_grid (s_hs s) /\
  forall x y, (x < nx (s_hs s))%nat -> (y < ny (s_hs s))%nat ->
  a_val u x y = - / area_per_pt (s_hs s) * mult (nx (s_hs s)) (ny (s_hs s)) (GF s) (a_val f) x y.
Proof.
  intros a s f H E. unfold evaluate_disp. rewrite E, shape_eqb_refl. simpl negb.
  cbv iota. eexists. split; [reflexivity|]. split; [reflexivity|].
  intros x y Hx Hy. cbn [a_val].
  destruct (construct_inv a s H) as [Hn _].
  pose proof (grid_pos _ _ Hn) as [G1 G2].
  unfold normalisation, mult.
  rewrite (irfft2_ext' _ _ _
    (fun k l => GF s k l * fft2 (nx (s_hs s)) (ny (s_hs s)) (fun x y => (- a_val f x y)%R) k l)%C).
  2:{ intros. unfold GF. ring. }
  transitivity (/ area_per_pt (s_hs s) *
    mult (nx (s_hs s)) (ny (s_hs s)) (GF s) (fun x y => -1 * a_val f x y + 0 * a_val f x y) x y).
  - unfold mult. unfold Rdiv. rewrite Rmult_1_l. rewrite Rmult_comm, (Rmult_comm _ (/ area_per_pt _)).
    fold (npts (nx (s_hs s)) (ny (s_hs s))).
    rewrite Rmult_comm, Rmult_assoc. f_equal. f_equal. apply irfft2_ext'. intros. f_equal.
    apply fft2_ext. intros. ring.
  - rewrite mult_lin by (try assumption; eapply GF_Herm; eassumption).
    unfold mult. ring.
Qed.

Lemma evaluate_force_eq : forall a s u, construct a = Ret s ->
  a_shape u = h_grid (s_hs s) ->
  exists f, evaluate_force s u = Ret f /\ a_shape f = h_grid (s_hs s) /\
  forall x y,
  a_val f x y = - area_per_pt (s_hs s) * mult (nx (s_hs s)) (ny (s_hs s)) (SS s) (a_val u) x y.
Proof.
  intros a s f H E. unfold evaluate_force. rewrite E, shape_eqb_refl. simpl negb.
  cbv iota. eexists. split; [reflexivity|]. split; [reflexivity|].
  intros x y. cbn [a_val].
  unfold normalisation, mult.
  rewrite (irfft2_ext' _ _ _
    (fun k l => SS s k l * fft2 (nx (s_hs s)) (ny (s_hs s)) (a_val f) k l)%C).
  2:{ intros. unfold SS. ring. }
  fold (npts (nx (s_hs s)) (ny (s_hs s))). unfold Rdiv. ring.
Qed.
