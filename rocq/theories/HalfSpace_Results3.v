(** * Eigenmodes, net force, thickness, subdomains, constructor *)

From Coq Require Import Reals ZArith Lia Lra List Arith Bool.
From Coquelicot Require Import Complex Coquelicot.
From Verif Require Import Py FFT_Base HalfSpace_Model HalfSpace_Spec
  HalfSpace_Proofs HalfSpace_Results HalfSpace_Results2 Thickness.
Import ListNotations.
Local Open Scope R_scope.

Lemma sizes_eq : forall a s, construct a = Ret s ->
  sx (s_hs s) = cell_size (a_sizes a) 0
  /\ sy (s_hs s) = (if Nat.eqb (length (a_grid a)) 1 then 1 else cell_size (a_sizes a) 1)
  /\ length (a_grid a) = dim (s_hs s)
  /\ (length (a_grid a) = 1%nat -> gy (a_grid a) = 1%nat)
  /\ (length (a_grid a) = 1%nat \/ length (a_grid a) = 2%nat).
Proof.
  intros a s H. destruct (construct_inv a s H) as [Hn _].
  pose proof (new_inv _ _ Hn) as [Hd [_ [_ [_ [_ [_ E]]]]]].
  rewrite E. unfold sx, sy, dim. simpl.
  destruct Hd as [Hd|Hd]; rewrite Hd; cbn -[Nat.min nth]; cbn [nth];
    repeat split; auto; try discriminate.
  intros _. unfold gy. destruct (a_grid a) as [|? [|? ?]]; simpl in *;
    try reflexivity; discriminate.
Qed.

Lemma qcoord_min : forall n s k, (k < n)%nat ->
  qcoord n s k = INR (Nat.min k (n - k)) / s.
Proof.
  intros n s k H. unfold qcoord.
  pose proof (Nat.div_mod n 2 ltac:(lia)). pose proof (Nat.mod_upper_bound n 2 ltac:(lia)).
  destruct (Nat.leb_spec k (n / 2)).
  - rewrite Nat.min_l by lia. reflexivity.
  - rewrite Nat.min_r by lia. rewrite minus_INR by lia. reflexivity.
Qed.

Lemma qabs_wavenumber : forall a s k l, construct a = Ret s ->
  on_grid (a_grid a) k l ->
  2 * PI * qabs (s_hs s) k l
  = wavenumber (a_grid a) (cell_size (a_sizes a) 0) (cell_size (a_sizes a) 1) k l.
Proof.
  intros a s k l H [Hk Hl]. destruct (sizes_eq a s H) as [Ex [Ey [_ [E1 _]]]].
  unfold qabs, wavenumber. f_equal. f_equal.
  rewrite (nx_gx a s H), (ny_gy a s H), Ex, Ey.
  rewrite !qcoord_min by assumption. f_equal; [ring|].
  destruct (Nat.eqb_spec (length (a_grid a)) 1) as [L|L]; [|ring].
  rewrite (E1 L) in *. assert (l = 0%nat) by lia. subst l. simpl. unfold Rdiv. ring.
Qed.

Definition zero_wave (p q : nat) : Prop := p = 0%nat /\ q = 0%nat.

Lemma is_00_false : forall p q, ~ zero_wave p q -> is_00 p q = false.
Proof.
  intros p q H. unfold is_00. destruct (Nat.eqb_spec p 0), (Nat.eqb_spec q 0); try reflexivity.
  exfalso. apply H. split; assumption.
Qed.

Lemma ss_infinite : forall a s p q, construct a = Ret s -> pos_args a ->
  on_grid (a_grid a) p q -> ~ zero_wave p q ->
  (a_thick a = None \/ length (a_grid a) = 1%nat) ->
  s_ss s p q = contact_modulus (a_young a) (a_poisson a) / 2 *
    wavenumber (a_grid a) (cell_size (a_sizes a) 0) (cell_size (a_sizes a) 1) p q.
Proof.
  intros a s p q H Hp Hg Hz Ht.
  destruct (construct_inv a s H) as [Hn _].
  destruct (zero_thick_q0 _ _ Hn) as [_ [Et [_ [_ [Ee _]]]]].
  destruct (sizes_eq a s H) as [_ [_ [Ed _]]].
  rewrite <- (qabs_wavenumber a s p q H Hg).
  destruct Hg as [H1 H2]. rewrite <- (nx_gx a s H) in H1. rewrite <- (ny_gy a s H) in H2.
  rewrite (ss_val a s H Hp) by assumption.
  unfold zeroed, sigma. rewrite (is_00_false _ _ Hz). cbn [andb].
  assert (T : eff_thick (s_hs s) = None).
  { unfold eff_thick. rewrite <- Ed. destruct (Nat.eqb_spec (length (a_grid a)) 1).
    - reflexivity.
    - rewrite Et. tauto. }
  rewrite T, Ee. unfold contact_modulus. field. destruct Hp as [_ [_ [Hnu _]]]. nra.
Qed.

Lemma ss_thick : forall a s p q t, construct a = Ret s -> pos_args a ->
  on_grid (a_grid a) p q -> ~ zero_wave p q ->
  length (a_grid a) = 2%nat -> a_thick a = Some t ->
  s_ss s p q = layer_stiffness (a_young a) (a_poisson a) t
    (wavenumber (a_grid a) (cell_size (a_sizes a) 0) (cell_size (a_sizes a) 1) p q).
Proof.
  intros a s p q t H Hp Hg Hz L Ht.
  destruct (construct_inv a s H) as [Hn _].
  pose proof (sizes_pos _ _ Hn Hp) as [Sx Sy].
  destruct (zero_thick_q0 _ _ Hn) as [_ [Et [_ [_ [Ee [En _]]]]]].
  destruct (sizes_eq a s H) as [_ [_ [Ed _]]].
  rewrite <- (qabs_wavenumber a s p q H Hg).
  destruct Hg as [H1 H2]. rewrite <- (nx_gx a s H) in H1. rewrite <- (ny_gy a s H) in H2.
  assert (Q : 0 < qabs (s_hs s) p q).
  { apply qabs_pos; try assumption. apply is_00_false. assumption. }
  rewrite (ss_val a s H Hp) by assumption.
  unfold zeroed, sigma. rewrite (is_00_false _ _ Hz). cbn [andb].
  assert (T : eff_thick (s_hs s) = Some t).
  { unfold eff_thick. rewrite <- Ed, L. simpl. congruence. }
  rewrite T, Ee, En. unfold layer_stiffness, contact_modulus, thick_corr.
  replace (qabs (s_hs s) p q * (2 * PI * t)) with (2 * PI * qabs (s_hs s) p q * t) by ring.
  set (Qt := 2 * PI * qabs (s_hs s) p q * t).
  replace (5 - 12 * a_poisson a + 8 * a_poisson a ^ 2)
    with (4 * a_poisson a * (2 * a_poisson a - 3) + 5) by ring.
  destruct Hp as [_ [_ [Hnu [Hth _]]]]. destruct (Hth t Ht) as [T1 T2].
  assert (HQt : 0 < Qt).
  { unfold Qt. pose proof PI_RGT_0. apply Rmult_lt_0_compat; [|assumption].
    apply Rmult_lt_0_compat; [lra|assumption]. }
  pose proof (thick_den_pos (a_poisson a) Qt T2 HQt).
  field. split; [lra|nra].
Qed.

Lemma ss_thick_0 : forall a s t, construct a = Ret s -> pos_args a ->
  length (a_grid a) = 2%nat -> a_thick a = Some t ->
  s_ss s 0 0 = uniaxial_stiffness (a_young a) (a_poisson a) t.
Proof.
  intros a s t H Hp L Ht.
  destruct (construct_inv a s H) as [Hn _].
  destruct (zero_thick_q0 _ _ Hn) as [Eq [Et [Hex [_ [_ [En Ey]]]]]].
  destruct (sizes_eq a s H) as [_ [_ [Ed _]]].
  pose proof (grid_pos _ _ Hn) as [G1 G2].
  rewrite (ss_val a s H Hp) by assumption.
  assert (T : eff_thick (s_hs s) = Some t).
  { unfold eff_thick. rewrite <- Ed, L. simpl. congruence. }
  assert (Q : h_q0 (s_hs s) = None) by (destruct Hex; congruence).
  unfold zeroed, sigma, zero_mode. rewrite Q, T, andb_false_r.
  change (is_00 0 0) with true. cbv iota. rewrite En, Ey.
  unfold thick_q0, uniaxial_stiffness.
  destruct Hp as [_ [_ [Hnu [Hth _]]]]. destruct (Hth t Ht) as [T1 T2].
  field. repeat split; lra.
Qed.

(** Zero mode without thickness. *)
Lemma ss_q0 : forall a s q, construct a = Ret s -> pos_args a ->
  a_q0 a = Some q -> s_ss s 0 0 = q.
Proof.
  intros a s q H Hp Hq.
  destruct (construct_inv a s H) as [Hn _].
  destruct (zero_thick_q0 _ _ Hn) as [Eq [Et [Hex _]]].
  pose proof (grid_pos _ _ Hn) as [G1 G2].
  rewrite (ss_val a s H Hp) by assumption.
  assert (Q : h_q0 (s_hs s) = Some q) by congruence.
  assert (T : eff_thick (s_hs s) = None).
  { unfold eff_thick. destruct (Nat.eqb (dim (s_hs s)) 1); [reflexivity|].
    destruct Hex; congruence. }
  unfold zeroed, sigma, zero_mode. rewrite Q, T.
  change (is_00 0 0) with true. cbn [andb].
  destruct (Req_bool_spec q 0); [congruence|reflexivity].
Qed.

Lemma ss_default : forall a s, construct a = Ret s -> pos_args a ->
  a_q0 a = None -> (a_thick a = None \/ length (a_grid a) = 1%nat) ->
  s_ss s 0 0 = (if Nat.eqb (length (a_grid a)) 1 then s_ss s 1 0
                else (s_ss s 1 0 + s_ss s 0 1) / 2)
  /\ (2 <= gx (a_grid a))%nat
  /\ (length (a_grid a) = 1%nat \/ (2 <= gy (a_grid a))%nat).
Proof.
  intros a s H Hp Hq Ht.
  destruct (construct_inv a s H) as [Hn _].
  destruct (zero_thick_q0 _ _ Hn) as [Eq [Et [Hex [_ [Ee _]]]]].
  destruct (sizes_eq a s H) as [_ [_ [Ed [Ey _]]]].
  destruct (gx_pos a s H) as [P1 P2].
  assert (Q : h_q0 (s_hs s) = None) by congruence.
  assert (T : eff_thick (s_hs s) = None).
  { unfold eff_thick. rewrite <- Ed. destruct (Nat.eqb_spec (length (a_grid a)) 1).
    - reflexivity.
    - rewrite Et. tauto. }
  destruct (index_ok a s H Q T) as [I1 I2].
  rewrite (nx_gx a s H) in I1. rewrite (ny_gy a s H), <- Ed in I2.
  split; [|tauto].
  rewrite (ss_val a s H Hp 0 0); [|rewrite (nx_gx a s H); lia|rewrite (ny_gy a s H); lia].
  unfold zeroed, sigma, zero_mode. rewrite Q, T, <- Ed. change (is_00 0 0) with true.
  cbn [andb].
  assert (S10 := ss_infinite a s 1 0 H Hp ltac:(split; lia) ltac:(unfold zero_wave; lia) Ht).
  rewrite <- (qabs_wavenumber a s _ _ H) in S10 by (split; lia).
  rewrite S10.
  destruct (Nat.eqb_spec (length (a_grid a)) 1) as [L|L].
  - rewrite Ee. unfold contact_modulus. field. destruct Hp as [_ [_ [Hnu _]]]. nra.
  - destruct I2 as [I2|I2]; [contradiction|].
    assert (S01 := ss_infinite a s 0 1 H Hp ltac:(split; lia) ltac:(unfold zero_wave; lia) Ht).
    rewrite <- (qabs_wavenumber a s _ _ H) in S01 by (split; lia).
    rewrite S01, Ee. unfold contact_modulus. field. destruct Hp as [_ [_ [Hnu _]]]. nra.
Qed.

(** ** Axis exchange *)

Lemma fft2_transpose : forall Nx Ny f k l,
  fft2 Ny Nx (transpose f) l k = fft2 Nx Ny f k l.
Proof.
  intros. unfold fft2, fftC, Csum2, transpose. rewrite Csum_swap.
  apply Csum_ext. intros. apply Csum_ext. intros. f_equal. f_equal.
  unfold phase. apply Cmult_comm.
Qed.

Lemma mult_transpose : forall Nx Ny G G' f x y,
  (0 < Nx)%nat -> (0 < Ny)%nat -> Herm Nx Ny G -> Herm Ny Nx G' ->
  (forall k l, (k < Nx)%nat -> (l < Ny)%nat -> G' l k = G k l) ->
  (x < Nx)%nat -> (y < Ny)%nat ->
  mult Ny Nx G' (transpose f) y x = mult Nx Ny G f x y.
Proof.
  intros Nx Ny G G' f x y P1 P2 HG HG' E. revert x y.
  apply (fft2_inj Nx Ny P1 P2 (fun x y => mult Ny Nx G' (transpose f) y x) (mult Nx Ny G f)).
  intros k l Hk Hl. rewrite fft2_mult by assumption.
  change (fun x y => mult Ny Nx G' (transpose f) y x)
    with (transpose (mult Ny Nx G' (transpose f))).
  rewrite fft2_transpose, fft2_mult, fft2_transpose, E by assumption. reflexivity.
Qed.

Definition swap_args (a : args) : args :=
  {| a_grid := rev (a_grid a); a_young := a_young a; a_sizes := rev (a_sizes a);
     a_q0 := a_q0 a; a_thick := a_thick a; a_poisson := a_poisson a;
     a_engine := match a_engine a with Some g => Some (rev g) | None => None end |}.

Lemma qabs_swap : forall h h' k l,
  nx h' = ny h -> ny h' = nx h -> sx h' = sy h -> sy h' = sx h ->
  qabs h' l k = qabs h k l.
Proof. intros h h' k l E1 E2 E3 E4. unfold qabs. rewrite E1, E2, E3, E4, Rplus_comm. reflexivity. Qed.

Lemma swap_ok : forall a s n m lx ly, construct a = Ret s ->
  a_grid a = [n; m] -> a_sizes a = [lx; ly] ->
  exists s', construct (swap_args a) = Ret s'.
Proof.
  intros a s n m lx ly H Eg Es.
  destruct (construct_inv a s H) as [Hn [Hg _]].
  pose proof (new_inv _ _ Hn) as [Hd [Hq [Hz [Hs [Hnu [He Eh]]]]]].
  assert (Hn' : exists h', new (swap_args a) = Ret h').
  { unfold new, new_on, swap_args. simpl a_grid. simpl a_sizes. simpl a_q0. simpl a_thick.
    simpl a_poisson. simpl a_engine. rewrite Eg, Es. cbn [rev app length Nat.eqb orb negb].
    replace (match a_q0 a with Some _ => match a_thick a with Some _ => true | None => false end
             | None => false end) with false
      by (destruct Hq as [Q|Q]; rewrite Q; destruct (a_q0 a); reflexivity).
    cbn [extend_sizes bind]. unfold compute_steps.
    assert (Z : existsb (fun k => Nat.eqb k 0) [m; n] = false).
    { simpl. rewrite Eg in Hz.
      destruct (Nat.eqb_spec m 0) as [M|M];
        [exfalso; apply (Hz m); [right; left; reflexivity|assumption]|].
      destruct (Nat.eqb_spec n 0) as [N|N];
        [exfalso; apply (Hz n); [left; reflexivity|assumption]|]. reflexivity. }
    rewrite Z. cbn [bind].
    destruct (Req_bool_spec (1 - a_poisson a ^ 2) 0); [contradiction|].
    destruct (a_engine a) as [g|] eqn:G.
    - rewrite (He g eq_refl), Eg. cbn [rev app]. rewrite shape_eqb_refl. simpl negb. cbv iota.
      eexists. reflexivity.
    - eexists. reflexivity. }
  destruct Hn' as [h' Hn'].
  destruct (zero_thick_q0 _ _ Hn) as [Eq [Et [_ [Egr _]]]].
  destruct (zero_thick_q0 _ _ Hn') as [Eq' [Et' [_ [Egr' _]]]]. simpl in Eq', Et', Egr'.
  pose proof (index_ok a s H) as IX.
  assert (Hg' : exists gf', compute_greens_function h' (0,0)%nat (fourier_pts (a_grid (swap_args a))) = Ret gf').
  { unfold compute_greens_function, dim. rewrite Egr', Eg. cbn [rev app length Nat.eqb].
    unfold greens_2d. simpl a_grid. rewrite Eg. cbn [rev app fourier_pts nth fst snd].
    change (at_origin (0%nat, 0%nat)) with true. cbv iota.
    unfold eff_thick, dim in IX. rewrite Egr, Eg in IX. cbn [length Nat.eqb] in IX.
    unfold nx, ny in IX. rewrite Egr, Eg in IX. cbn [nth] in IX.
    destruct (Nat.eqb_spec ((m / 2 + 1) * n) 0); [eexists; reflexivity|].
    rewrite Et', Eq', <- Et, <- Eq.
    destruct (h_thick (s_hs s)); [eexists; reflexivity|].
    destruct (h_q0 (s_hs s)); [eexists; reflexivity|].
    destruct (IX eq_refl eq_refl) as [I1 [I2|I2]]; [discriminate|].
    destruct (Nat.ltb_spec (m / 2 + 1) 2) as [L|L].
    { assert (1 <= m / 2)%nat by (apply Nat.div_le_lower_bound; lia). lia. }
    destruct (Nat.ltb_spec n 2); [lia|]. eexists; reflexivity. }
  destruct Hg' as [gf' Hg'].
  unfold construct, construct_on. rewrite Hn'. cbn [bind]. rewrite Hg'. cbn [bind].
  eexists. reflexivity.
Qed.

Lemma gf_swap : forall a s s' n m lx ly, construct a = Ret s ->
  construct (swap_args a) = Ret s' ->
  a_grid a = [n; m] -> a_sizes a = [lx; ly] -> 0 < lx -> 0 < ly ->
  (forall k l, (k < n)%nat -> (l < m)%nat -> s_gf s' l k = s_gf s k l)
  /\ area_per_pt (s_hs s') = area_per_pt (s_hs s).
Proof.
  intros a s s' n m lx ly H H' Eg Es Px Py.
  destruct (construct_inv a s H) as [Hn _].
  destruct (construct_inv _ _ H') as [Hn' _].
  destruct (zero_thick_q0 _ _ Hn) as [Eq [Et [_ [Egr [Ee [En Ey]]]]]].
  destruct (zero_thick_q0 _ _ Hn') as [Eq' [Et' [_ [Egr' [Ee' [En' Ey']]]]]].
  simpl in Eq', Et', Egr', Ee', En', Ey'.
  pose proof (new_inv _ _ Hn) as [_ [_ [_ [_ [_ [_ Eh]]]]]].
  pose proof (new_inv _ _ Hn') as [_ [_ [_ [_ [_ [_ Eh']]]]]].
  assert (N1 : nx (s_hs s) = n) by (unfold nx; rewrite Egr, Eg; reflexivity).
  assert (N2 : ny (s_hs s) = m) by (unfold ny; rewrite Egr, Eg; reflexivity).
  assert (N1' : nx (s_hs s') = m) by (unfold nx; rewrite Egr', Eg; reflexivity).
  assert (N2' : ny (s_hs s') = n) by (unfold ny; rewrite Egr', Eg; reflexivity).
  assert (S1 : sx (s_hs s) = lx) by (unfold sx; rewrite Eh; simpl; rewrite Eg, Es; reflexivity).
  assert (S2 : sy (s_hs s) = ly) by (unfold sy; rewrite Eh; simpl; rewrite Eg, Es; reflexivity).
  assert (S1' : sx (s_hs s') = ly) by (unfold sx; rewrite Eh'; simpl; rewrite Eg, Es; reflexivity).
  assert (S2' : sy (s_hs s') = lx) by (unfold sy; rewrite Eh'; simpl; rewrite Eg, Es; reflexivity).
  split.
  - intros k l Hk Hl.
    rewrite (gf_form a s H); try (rewrite ?N1, ?N2; assumption).
    2:{ rewrite Es. intros x [X|[X|[]]]; subst; assumption. }
    rewrite (gf_form _ s' H'); try (rewrite ?N1', ?N2'; assumption).
    2:{ simpl. rewrite Es. intros x [X|[X|[]]]; subst; assumption. }
    assert (I : is_00 l k = is_00 k l) by (unfold is_00; apply andb_comm).
    assert (D : dim (s_hs s) = 2%nat) by (unfold dim; rewrite Egr, Eg; reflexivity).
    assert (D' : dim (s_hs s') = 2%nat) by (unfold dim; rewrite Egr', Eg; reflexivity).
    assert (QQ : forall k l, qabs (s_hs s') l k = qabs (s_hs s) k l).
    { intros. apply qabs_swap; congruence. }
    unfold zeroed, sigma, zero_mode, eff_thick. rewrite D, D'. cbn [Nat.eqb].
    rewrite Eq', Et', Ee', En', Ey', Eq, Et, Ee, En, Ey, I, !QQ.
    destruct (a_thick a); [reflexivity|]. destruct (a_q0 a); [reflexivity|].
    rewrite (Rplus_comm (qabs (s_hs s) 0 1)). reflexivity.
  - rewrite (area_eq _ _ Hn), (area_eq _ _ Hn'). unfold npts.
    rewrite N1, N2, N1', N2', S1, S2, S1', S2'. f_equal; ring.
Qed.

(** ** Subdomains of the Green's function (two dimensions) *)

Lemma greens_slice_2d : forall h loc n gf gfl, dim h = 2%nat ->
  compute_greens_function h (0,0)%nat (nx h / 2 + 1, ny h)%nat = Ret gf ->
  compute_greens_function h loc n = Ret gfl ->
  (fst loc + fst n <= nx h / 2 + 1)%nat -> (snd loc + snd n <= ny h)%nat ->
  forall i j, (i < fst n)%nat -> (j < snd n)%nat ->
  gfl i j = gf (fst loc + i)%nat (snd loc + j)%nat.
Proof.
  intros h [l0 l1] [n0 n1] gf gfl D Hg Hl B0 B1 i j Hi Hj.
  cbn [fst snd] in *. unfold compute_greens_function in *. rewrite D in *.
  cbn [Nat.eqb] in *. unfold greens_2d in *. cbn [fst snd] in *.
  change (at_origin (0%nat, 0%nat)) with true in Hg. cbv iota in Hg.
  destruct (Nat.eqb_spec (n0 * n1) 0) as [Z|_]; [nia|].
  destruct (Nat.eqb_spec ((nx h / 2 + 1) * ny h) 0) as [Z|_]; [nia|].
  assert (AO : at_origin (l0, l1) = true -> l0 = 0%nat /\ l1 = 0%nat).
  { unfold at_origin. cbn [fst snd]. intros A. apply andb_prop in A.
    destruct A as [A1 A2]. apply Nat.eqb_eq in A1. apply Nat.eqb_eq in A2. auto. }
  assert (AN : at_origin (l0, l1) = false -> is_00 (l0 + i) (l1 + j) = false).
  { unfold at_origin, is_00. cbn [fst snd]. intros A.
    destruct (Nat.eqb_spec (l0 + i) 0); [|reflexivity].
    destruct (Nat.eqb_spec (l1 + j) 0); [|reflexivity].
    assert (l0 = 0%nat) by lia. assert (l1 = 0%nat) by lia. subst. discriminate. }
  destruct (h_thick h) as [t|].
  - injection Hg as Hg. injection Hl as Hl. rewrite <- Hg, <- Hl.
    destruct (at_origin (l0, l1)) eqn:A.
    + destruct (AO eq_refl). subst. reflexivity.
    + rewrite (AN eq_refl). cbn [andb Nat.add]. reflexivity.
  - destruct (at_origin (l0, l1)) eqn:A.
    + destruct (AO eq_refl). subst. cbn [Nat.add] in *.
      destruct (h_q0 h) as [q|].
      * injection Hg as Hg. injection Hl as Hl. rewrite <- Hg, <- Hl. reflexivity.
      * destruct (orb _ _) in Hg; [discriminate|]. destruct (orb _ _) in Hl; [discriminate|].
        injection Hg as Hg. injection Hl as Hl. rewrite <- Hg, <- Hl. reflexivity.
    + injection Hl as Hl. rewrite <- Hl. cbn [andb].
      destruct (h_q0 h) as [q|].
      * injection Hg as Hg. rewrite <- Hg. rewrite (AN eq_refl). cbn [andb Nat.add]. reflexivity.
      * destruct (orb _ _) in Hg; [discriminate|].
        injection Hg as Hg. rewrite <- Hg. rewrite (AN eq_refl). cbn [andb Nat.add]. reflexivity.
Qed.

Lemma greens_index_2d : forall h loc n, dim h = 2%nat ->
  (forall e, compute_greens_function h loc n = Exc e -> e = IndexError)
  /\ (is_exc (compute_greens_function h loc n) = true <->
      loc = (0, 0)%nat /\ (0 < fst n)%nat /\ (0 < snd n)%nat /\ h_thick h = None /\ h_q0 h = None
      /\ (fst n < 2 \/ snd n < 2)%nat).
Proof.
  intros h [l0 l1] [n0 n1] D. unfold compute_greens_function. rewrite D.
  cbn [Nat.eqb fst snd]. unfold greens_2d. cbn [fst snd].
  destruct (Nat.eqb_spec (n0 * n1) 0) as [Z|Z].
  { split; [discriminate|]. split; [discriminate|]. intros [_ [A [B _]]]. nia. }
  destruct (h_thick h) as [t|].
  { split; [discriminate|]. split; [discriminate|]. intros [_ [_ [_ [A _]]]]. discriminate. }
  destruct (at_origin (l0, l1)) eqn:A.
  - unfold at_origin in A. cbn [fst snd] in A. apply andb_prop in A.
    destruct A as [A1 A2]. apply Nat.eqb_eq in A1. apply Nat.eqb_eq in A2. subst.
    destruct (h_q0 h) as [q|].
    { split; [discriminate|]. split; [discriminate|].
      intros [_ [_ [_ [_ [A _]]]]]. discriminate. }
    destruct (Nat.ltb_spec n0 2) as [L0|L0]; destruct (Nat.ltb_spec n1 2) as [L1|L1];
      cbn [orb is_exc]; (split; [intros e E; congruence|]); split; intros X;
      try reflexivity; try discriminate; repeat split; try nia; try lia.
  - split; [discriminate|]. split; [discriminate|].
    intros [E _]. injection E as E0 E1. subst. discriminate.
Qed.

(** One dimension: every process overwrites ITS first entry. *)
Lemma greens_1d_local : forall h q loc n gfl, dim h = 1%nat -> h_q0 h = Some q -> q <> 0 ->
  compute_greens_function h (loc, 0)%nat (n, 1)%nat = Ret gfl -> gfl 0%nat 0%nat = 1 / q.
Proof.
  intros h q loc n gfl D Q Hq Hg. unfold compute_greens_function in Hg. rewrite D in Hg.
  cbn [Nat.eqb fst] in Hg. unfold greens_1d in Hg. rewrite Q in Hg.
  destruct (Nat.ltb n 1); [discriminate|]. cbn [bind] in Hg.
  destruct (Req_bool_spec q 0); [contradiction|]. rewrite andb_false_r in Hg.
  injection Hg as Hg. rewrite <- Hg. reflexivity.
Qed.

(** ** Constructor *)

Lemma new_error_iff : forall a,
  new a = Exc SubstrateError <->
  (length (a_grid a) <> 1%nat /\ length (a_grid a) <> 2%nat)
  \/ ((exists q, a_q0 a = Some q) /\ (exists t, a_thick a = Some t))
  \/ ((length (a_grid a) = 1%nat \/ length (a_grid a) = 2%nat)
      /\ (a_q0 a = None \/ a_thick a = None)
      /\ a_sizes a <> [] /\ (forall n, In n (a_grid a) -> n <> 0%nat)
      /\ 1 - a_poisson a ^ 2 <> 0
      /\ exists g, a_engine a = Some g /\ g <> a_grid a).
Proof.
  intros a. unfold new, new_on.
  destruct (orb (Nat.eqb (length (a_grid a)) 1) (Nat.eqb (length (a_grid a)) 2)) eqn:D; cbn [negb].
  2:{ apply orb_false_iff in D. destruct D as [D1 D2].
      apply Nat.eqb_neq in D1. apply Nat.eqb_neq in D2. tauto. }
  assert (Hd : length (a_grid a) = 1%nat \/ length (a_grid a) = 2%nat).
  { apply orb_true_iff in D. destruct D as [D|D]; apply Nat.eqb_eq in D; auto. }
  destruct (a_q0 a) as [q|] eqn:Q; destruct (a_thick a) as [t|] eqn:T.
  { split; [intros _; right; left; split; eexists; reflexivity|reflexivity]. }
  all: destruct (a_sizes a) as [|x0 sizes] eqn:S.
  all: try (assert (Ex : extend_sizes (length (a_grid a)) [] = Exc IndexError)
              by (destruct Hd as [Hd|Hd]; rewrite Hd; reflexivity);
            rewrite Ex; cbn [bind]; split; [discriminate|];
            intros [[A B]|[[[? A] [? B]]|[_ [_ [A _]]]]]; try congruence; lia).
  all: assert (Ex : exists l, extend_sizes (length (a_grid a)) (x0 :: sizes) = Ret l)
              by (destruct Hd as [Hd|Hd]; rewrite Hd; eexists; reflexivity).
  all: destruct Ex as [l Ex]; rewrite Ex; cbn [bind]; unfold compute_steps.
  all: destruct (existsb (fun n => Nat.eqb n 0) (a_grid a)) eqn:Z; cbn [bind].
  all: try (split; [discriminate|];
            apply existsb_exists in Z; destruct Z as [z [Z1 Z2]]; apply Nat.eqb_eq in Z2;
            intros [[A B]|[[[? A] [? B]]|[_ [_ [_ [A _]]]]]]; try congruence; try lia;
            exfalso; apply (A z Z1 Z2)).
  all: assert (Hz : forall n, In n (a_grid a) -> n <> 0%nat)
         by (intros n Hn Hn0; subst n;
             assert (existsb (fun n => Nat.eqb n 0) (a_grid a) = true)
               by (apply existsb_exists; exists 0%nat; auto); congruence).
  all: destruct (Req_bool_spec (1 - a_poisson a ^ 2) 0) as [P|P].
  all: try (split; [discriminate|];
            intros [[A B]|[[[? A] [? B]]|[_ [_ [_ [_ [A _]]]]]]]; try congruence; try lia).
  all: destruct (a_engine a) as [g|] eqn:G;
       [destruct (shape_eqb g (a_grid a)) eqn:Eg; cbn [negb]|].
  all: split; intros X; try discriminate; try reflexivity.
  all: try (destruct X as [[A B]|[[[? A] [? B]]|[_ [_ [_ [_ [_ [g' [A B]]]]]]]]];
            [lia|congruence|]; try discriminate;
            apply shape_eqb_spec in Eg; congruence).
  all: right; right; split; [exact Hd|]; split; [auto|]; split; [discriminate|];
       split; [exact Hz|]; split; [exact P|];
       exists g; split; [reflexivity|]; intro E; subst g;
       rewrite shape_eqb_refl in Eg; discriminate.
Qed.

Lemma new_ok_iff : forall a,
  (exists h, new a = Ret h) <->
  (length (a_grid a) = 1%nat \/ length (a_grid a) = 2%nat)
  /\ (a_q0 a = None \/ a_thick a = None)
  /\ a_sizes a <> [] /\ (forall n, In n (a_grid a) -> n <> 0%nat)
  /\ 1 - a_poisson a ^ 2 <> 0
  /\ (forall g, a_engine a = Some g -> g = a_grid a).
Proof.
  intros a. split.
  - intros [h H]. apply new_inv in H. tauto.
  - intros [Hd [Hq [Hs [Hz [Hp He]]]]].
    destruct (new a) as [h|e] eqn:N; [eauto|exfalso].
    unfold new, new_on in N.
    replace (orb (Nat.eqb (length (a_grid a)) 1) (Nat.eqb (length (a_grid a)) 2)) with true in N
      by (destruct Hd as [Hd|Hd]; rewrite Hd; reflexivity).
    cbn [negb] in N.
    replace (match a_q0 a with Some _ => match a_thick a with Some _ => true | None => false end
             | None => false end) with false in N
      by (destruct Hq as [Q|Q]; rewrite Q; destruct (a_q0 a); reflexivity).
    destruct (a_sizes a) as [|x0 sizes]; [congruence|].
    assert (Ex : exists l, extend_sizes (length (a_grid a)) (x0 :: sizes) = Ret l)
              by (destruct Hd as [Hd|Hd]; rewrite Hd; eexists; reflexivity).
    destruct Ex as [l Ex]. rewrite Ex in N. cbn [bind] in N. unfold compute_steps in N.
    destruct (existsb (fun n => Nat.eqb n 0) (a_grid a)) eqn:Z.
    { apply existsb_exists in Z. destruct Z as [z [Z1 Z2]]. apply Nat.eqb_eq in Z2.
      apply (Hz z Z1 Z2). }
    cbn [bind] in N.
    destruct (Req_bool_spec (1 - a_poisson a ^ 2) 0); [contradiction|].
    destruct (a_engine a) as [g|].
    + rewrite (He g eq_refl), shape_eqb_refl in N. discriminate.
    + discriminate.
Qed.

Lemma new_sizes : forall a h, new a = Ret h ->
  length (h_sizes h) = length (a_grid a) /\ length (h_steps h) = length (a_grid a)
  /\ forall i, (i < length (a_grid a))%nat ->
     nth i (h_sizes h) 0 = cell_size (a_sizes a) i
     /\ nth i (h_steps h) 0 * INR (nth i (a_grid a) 0%nat) = cell_size (a_sizes a) i.
Proof.
  intros a h H. apply new_inv in H. destruct H as [Hd [_ [Hz [_ [_ [_ E]]]]]].
  rewrite E. simpl. unfold cell_size.
  destruct (a_grid a) as [|n1 [|n2 [|? ?]]]; simpl in *; try (destruct Hd; lia).
  - split; [reflexivity|]. split; [reflexivity|]. intros i Hi.
    assert (i = 0%nat) by lia. subst i. split; [reflexivity|].
    assert (INR n1 <> 0) by (apply not_0_INR; apply Hz; left; reflexivity).
    cbn. field. assumption.
  - split; [reflexivity|]. split; [reflexivity|]. intros i Hi.
    assert (INR n1 <> 0) by (apply not_0_INR; apply Hz; left; reflexivity).
    assert (INR n2 <> 0) by (apply not_0_INR; apply Hz; right; left; reflexivity).
    destruct i as [|[|i]]; [| |lia]; (split; [reflexivity|]); cbn [nth];
      unfold Rdiv; rewrite Rmult_assoc, Rinv_l by assumption; apply Rmult_1_r.
Qed.

Lemma construct_q0_zero_1d : forall a, length (a_grid a) = 1%nat -> a_q0 a = Some 0 ->
  exists e, construct a = Exc e.
Proof.
  intros a L Q. unfold construct, construct_on.
  destruct (new a) as [h|e] eqn:N; cbn [bind]; [|eexists; reflexivity].
  destruct (zero_thick_q0 _ _ N) as [Eq [_ [_ [Eg _]]]].
  unfold compute_greens_function, dim. rewrite Eg, L. cbn [Nat.eqb fst].
  unfold greens_1d. rewrite Eq, Q.
  destruct (Nat.ltb _ 1); cbn [bind]; [eexists; reflexivity|].
  destruct (Req_bool_spec 0 0); [|congruence]. cbn [Nat.eqb andb bind]. eexists. reflexivity.
Qed.
