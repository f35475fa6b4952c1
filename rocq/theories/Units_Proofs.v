(** * The substrate in other units *)
From Coq Require Import Reals Lia Lra List Arith Bool FunctionalExtensionality.
From Coquelicot Require Import Complex.
From Verif Require Import Py FFT_Base HalfSpace_Spec HalfSpace_Model HalfSpace_Proofs HalfSpace_Results HalfSpace_Results2
  Systems_Model Contact_Model Contact_Proofs Units_Spec.
From Verif Require CCG_Model CCG_Spec CCG_Invariance.
From Coq Require Import List.
Import ListNotations.
Local Open Scope R_scope.

Section Units.
  Variables (c lam : R).
  Hypothesis C0 : 0 < c.
  Hypothesis L0 : 0 < lam.

  Definition hs_units (h : hs) : hs :=
    mkHs (h_grid h) (map (Rmult lam) (h_sizes h)) (map (Rmult lam) (h_steps h)) (c * h_young h) (h_poisson h) (c * h_Estar h)
      (option_map (fun q => c / lam * q) (h_q0 h)) (option_map (Rmult lam) (h_thick h)).
  Definition sub_units (s : sub) : sub :=
    mkSub (hs_units (s_hs s)) (fun k l => lam / c * s_gf s k l) (fun k l => c / lam * s_ss s k l).

  Lemma nth_scaled : forall l i, nth i (map (Rmult lam) l) 0 = lam * nth i l 0.
  Proof. induction l as [|x l IH]; intros [|i]; cbn; try ring. apply IH. Qed.
  Lemma extend_units : forall d sizes, extend_sizes d (map (Rmult lam) sizes)
    = match extend_sizes d sizes with Ret l => Ret (map (Rmult lam) l) | Exc e => Exc e end.
  Proof.
    intros d sizes. unfold extend_sizes. destruct sizes as [|x l]; [destruct d; reflexivity|].
    cbn [map]. rewrite map_map. f_equal. apply map_ext. intros i. rewrite <- nth_scaled. cbn [List.length map]. rewrite map_length. reflexivity.
  Qed.
  Lemma steps_units : forall sizes grid, compute_steps (map (Rmult lam) sizes) grid
    = match compute_steps sizes grid with Ret l => Ret (map (Rmult lam) l) | Exc e => Exc e end.
  Proof.
    intros sizes grid. unfold compute_steps. destruct (existsb _ grid); [reflexivity|]. f_equal.
    revert grid. induction sizes as [|x l IH]; intros [|n grid]; try reflexivity. cbn. rewrite IH. f_equal. unfold Rdiv. ring.
  Qed.
  Lemma new_units : forall a, new (in_new_units c lam a) = match new a with Ret h => Ret (hs_units h) | Exc e => Exc e end.
  Proof.
    intros a. unfold new, new_on, in_new_units. cbn [a_grid a_young a_sizes a_q0 a_thick a_poisson a_engine].
    destruct (negb _); [reflexivity|].
    assert (B : match option_map (fun q => c / lam * q) (a_q0 a), option_map (Rmult lam) (a_thick a) with Some _, Some _ => true | _, _ => false end
      = match a_q0 a, a_thick a with Some _, Some _ => true | _, _ => false end) by (destruct (a_q0 a), (a_thick a); reflexivity).
    rewrite B. destruct (match a_q0 a with Some _ => _ | None => _ end); [reflexivity|].
    rewrite extend_units. destruct (extend_sizes _ (a_sizes a)) as [sizes|e]; [|reflexivity]. cbn [bind].
    rewrite steps_units. destruct (compute_steps sizes (a_grid a)) as [steps|e]; [|reflexivity]. cbn [bind].
    destruct (Req_bool _ 0); [reflexivity|]. destruct (match a_engine a with Some _ => _ | None => _ end); [reflexivity|].
    unfold hs_units. cbn. do 2 f_equal. unfold Rdiv. ring.
  Qed.
  Lemma sx_units : forall h, h_sizes h <> [] -> sx (hs_units h) = lam * sx h.
  Proof. intros h H. unfold sx. cbn. destruct (h_sizes h); [congruence|reflexivity]. Qed.
  Lemma qcoord_units : forall n s k, qcoord n (lam * s) k = / lam * qcoord n s k.
  Proof. intros. unfold qcoord, Rdiv. rewrite Rinv_mult. destruct (Nat.leb _ _); ring. Qed.
  Lemma inv_units : forall x, 1 / (c / lam * x) = lam / c * (1 / x).
  Proof. intros. unfold Rdiv. rewrite !Rinv_mult, Rinv_inv. ring. Qed.
  Lemma req_units : forall q, Req_bool (c / lam * q) 0 = Req_bool q 0.
  Proof.
    intros q. assert (K : 0 < c / lam) by (apply Rdiv_lt_0_compat; assumption).
    destruct (Req_bool_spec (c / lam * q) 0) as [E|E]; destruct (Req_bool_spec q 0) as [E'|E']; try reflexivity.
    - apply Rmult_integral in E. lra.
    - rewrite E' in E. lra.
  Qed.
  Lemma qabs_units : forall h x y k l, h_sizes h = [x; y] -> qabs (hs_units h) k l = / lam * qabs h k l.
  Proof.
    intros h x y k l S. unfold qabs. unfold nx, ny, sx, sy. cbn [hs_units h_grid h_sizes]. rewrite S. cbn [map nth].
    rewrite !qcoord_units. rewrite <- (sqrt_Rsqr (/ lam)) at 5 by (left; apply Rinv_0_lt_compat; exact L0).
    rewrite <- sqrt_mult_alt by apply Rle_0_sqr. f_equal. unfold Rsqr. ring.
  Qed.
  Lemma q0_units : forall h, match h_q0 (hs_units h) with Some q => Req_bool q 0 | None => false end
    = match h_q0 h with Some q => Req_bool q 0 | None => false end.
  Proof. intros h. cbn. destruct (h_q0 h); [apply req_units|reflexivity]. Qed.
  Lemma greens_2d_units : forall h x y loc n, h_sizes h = [x; y] -> greens_2d (hs_units h) loc n
    = match greens_2d h loc n with Ret g => Ret (fun i j => lam / c * g i j) | Exc e => Exc e end.
  Proof.
    intros h x y loc n S. unfold greens_2d. destruct (Nat.eqb (fst n * snd n) 0).
    { f_equal. apply functional_extensionality. intros i. apply functional_extensionality. intros j. ring. }
    rewrite q0_units. cbn [hs_units h_thick h_young h_poisson h_Estar].
    assert (SS : forall i j, PI * (c * h_Estar h) * qabs (hs_units h) i j = c / lam * (PI * h_Estar h * qabs h i j)).
    { intros. rewrite (qabs_units h x y) by exact S. unfold Rdiv. ring. }
    assert (FIN : forall (s1 s2 : nat -> nat -> R) b, (forall i j, andb (andb (at_origin loc) (is_00 i j)) b = false -> s1 i j = c / lam * s2 i j) ->
      Ret (fun i j => if andb (andb (at_origin loc) (is_00 i j)) b then 0 else 1 / s1 i j)
      = Ret (fun i j => lam / c * (if andb (andb (at_origin loc) (is_00 i j)) b then 0 else 1 / s2 i j))).
    { intros s1 s2 b E. f_equal. apply functional_extensionality. intros i. apply functional_extensionality. intros j.
      specialize (E i j). destruct (andb _ b); [ring|]. rewrite E by reflexivity. apply inv_units. }
    destruct (h_thick h) as [t|]; cbn [option_map].
    - apply FIN. intros i j _. destruct (andb _ _).
      + unfold thick_q0, Rdiv. rewrite Rinv_mult. ring.
      + rewrite SS, (qabs_units h x y) by exact S.
        replace (/ lam * qabs h (fst loc + i) (snd loc + j) * (2 * PI * (lam * t))) with (qabs h (fst loc + i) (snd loc + j) * (2 * PI * t)) by (field; lra).
        ring.
    - destruct (at_origin loc) eqn:AO.
      + cbn [hs_units h_q0]. destruct (h_q0 h) as [q|]; cbn [option_map].
        * apply FIN. intros i j B. cbn [andb] in B. destruct (is_00 i j); [|apply SS]. cbn [andb] in B. rewrite req_units, B. reflexivity.
        * destruct (orb _ _); [reflexivity|]. apply FIN. intros i j _. destruct (is_00 i j); [|apply SS]. rewrite !SS. unfold Rdiv. ring.
      + apply FIN. intros i j _. apply SS.
  Qed.
  Lemma greens_1d_units : forall h n, h_sizes h <> [] -> greens_1d (hs_units h) 0 n
    = match greens_1d h 0 n with Ret g => Ret (fun i j => lam / c * g i j) | Exc e => Exc e end.
  Proof.
    intros h n S. unfold greens_1d. rewrite q0_units.
    assert (SS : forall i, PI * h_Estar (hs_units h) * qcoord (nx (hs_units h)) (sx (hs_units h)) i = c / lam * (PI * h_Estar h * qcoord (nx h) (sx h) i)).
    { intros. rewrite sx_units by exact S. rewrite qcoord_units. cbn [hs_units h_Estar]. unfold nx. cbn [hs_units h_grid]. unfold Rdiv. ring. }
    assert (FIN : forall v, Ret (fun i (_ : nat) => 1 / (if Nat.eqb i 0 then c / lam * v else PI * h_Estar (hs_units h) * qcoord (nx (hs_units h)) (sx (hs_units h)) (0 + i)))
      = Ret (fun i (_ : nat) => lam / c * (1 / (if Nat.eqb i 0 then v else PI * h_Estar h * qcoord (nx h) (sx h) (0 + i))))).
    { intros v. f_equal. apply functional_extensionality. intros i. apply functional_extensionality. intros j.
      destruct (Nat.eqb i 0); [apply inv_units|]. rewrite SS. apply inv_units. }
    cbn [hs_units h_q0]. destruct (h_q0 h) as [q|]; cbn [option_map].
    - destruct (Nat.ltb n 1); [reflexivity|]. cbn [bind]. rewrite req_units.
      destruct (Req_bool q 0) eqn:Z.
      + reflexivity.
      + cbn [andb Nat.eqb]. apply FIN.
    - destruct (Nat.ltb n 2); [reflexivity|]. cbn [bind]. rewrite andb_false_r. rewrite SS. apply FIN.
  Qed.
  Lemma sizes_length : forall a h, new a = Ret h -> List.length (h_sizes h) = List.length (a_grid a)
    /\ (List.length (a_grid a) = 1%nat \/ List.length (a_grid a) = 2%nat) /\ h_grid h = a_grid a.
  Proof.
    intros a h. unfold new, new_on. destruct (negb _) eqn:D; [discriminate|]. destruct (match a_q0 a with Some _ => _ | None => _ end); [discriminate|].
    unfold extend_sizes. destruct (a_sizes a) as [|x l].
    - destruct (List.length (a_grid a)) as [|[|[|d]]]; try discriminate.
    - cbn [bind]. destruct (compute_steps _ _); [|discriminate]. cbn [bind]. destruct (Req_bool _ _); [discriminate|].
      destruct (match a_engine a with Some _ => _ | None => _ end); [discriminate|]. intros E. injection E as <-. cbn [h_sizes h_grid].
      rewrite map_length, seq_length. split; [reflexivity|]. split; [|reflexivity].
      apply negb_false_iff, orb_true_iff in D. destruct D as [D|D]; apply Nat.eqb_eq in D; tauto.
  Qed.
  Lemma stiffness_units : forall gf, compute_surface_stiffness (fun i j => lam / c * gf i j)
    = fun i j => c / lam * compute_surface_stiffness gf i j.
  Proof.
    intros gf. apply functional_extensionality. intros i. apply functional_extensionality. intros j. unfold compute_surface_stiffness.
    assert (K : 0 < lam / c) by (apply Rdiv_lt_0_compat; assumption).
    destruct (Req_bool_spec (lam / c * gf i j) 0) as [E|E]; destruct (Req_bool_spec (gf i j) 0) as [E'|E'].
    - ring.
    - apply Rmult_integral in E. lra.
    - rewrite E' in E. lra.
    - unfold Rdiv. rewrite !Rinv_mult, Rinv_inv. ring.
  Qed.
  Lemma construct_units : forall a, construct (in_new_units c lam a) = match construct a with Ret s => Ret (sub_units s) | Exc e => Exc e end.
  Proof.
    intros a. unfold construct, construct_on. rewrite new_units. destruct (new a) as [h|e] eqn:EN; [|reflexivity]. cbn [bind].
    destruct (sizes_length a h EN) as (SL & D & G). change (a_grid (in_new_units c lam a)) with (a_grid a).
    assert (EG : compute_greens_function (hs_units h) (0, 0)%nat (fourier_pts (a_grid a))
      = match compute_greens_function h (0, 0)%nat (fourier_pts (a_grid a)) with Ret g => Ret (fun i j => lam / c * g i j) | Exc e => Exc e end).
    { unfold compute_greens_function, dim. change (h_grid (hs_units h)) with (h_grid h). rewrite G. destruct D as [D|D]; rewrite D in *; cbn [Nat.eqb].
      - apply greens_1d_units. intros Z. rewrite Z in SL. discriminate.
      - destruct (h_sizes h) as [|x [|y [|? ?]]] eqn:ES; try discriminate SL. exact (greens_2d_units h x y _ _ ES). }
    rewrite EG. destruct (compute_greens_function h _ _) as [gf|e]; [|reflexivity]. cbn [bind]. unfold sub_units. cbn [s_hs s_gf s_ss].
    rewrite stiffness_units. reflexivity.
  Qed.

  Lemma product_units : forall l, fold_right Rmult 1 (map (Rmult lam) l) = lam ^ List.length l * fold_right Rmult 1 l.
  Proof. induction l as [|x l IH]; cbn; [ring|]. rewrite IH. ring. Qed.
  Lemma area_units : forall a s, construct a = Ret s ->
    area_per_pt (s_hs (sub_units s)) = lam ^ List.length (a_grid a) * area_per_pt (s_hs s).
  Proof.
    intros a s H. destruct (construct_inv a s H) as [EN _]. destruct (sizes_length a _ EN) as (SL & _).
    unfold area_per_pt. cbn [sub_units s_hs hs_units h_sizes h_grid]. rewrite product_units, SL. unfold Rdiv. ring.
  Qed.
End Units.
