(** * Free and semi-periodic half-spaces in other units *)
From Coq Require Import Reals ZArith Lia Lra List Arith Bool FunctionalExtensionality.
From Coquelicot Require Import Complex.
From Verif Require Import Py FFT_Base HalfSpace_Spec HalfSpace_Model HalfSpace_Proofs HalfSpace_Results HalfSpace_Results2
  Free_Model Free_Spec Free_Proofs Free_Results Systems_Model Systems_Spec Systems_Proofs Units_Spec Units_Proofs FreeUnits_Spec.
From Coq Require Import List.
Import ListNotations.
Local Open Scope R_scope.

Ltac fext := apply functional_extensionality; intros ?x; apply functional_extensionality; intros ?y.

Lemma irfft2_scal : forall n m r G x y, irfft2 n m (fun k l => RtoC r * G k l)%C x y = r * irfft2 n m G x y.
Proof.
  intros. unfold irfft2. rewrite <- Rsum_scal. apply Rsum_ext. intros k Hk.
  rewrite (Csum_ext m _ (fun l => RtoC r * (G k l * phase n m k l x y))%C) by (intros; ring).
  rewrite Csum_scal. destruct (Csum m _) as [p q]. cbn. ring.
Qed.
Lemma fft2_scaled : forall n m r f, fft2 n m (fun x y => r * f x y) = fun k l => (RtoC r * fft2 n m f k l)%C.
Proof. intros. fext. apply fft2_scal. Qed.

Section Units.
  Variables (c lam : R).
  Hypothesis C0 : 0 < c.
  Hypothesis L0 : 0 < lam.

  Lemma root_units : forall x y, sqrt (lam * x * (lam * x) + lam * y * (lam * y)) = lam * sqrt (x * x + y * y).
  Proof.
    intros. rewrite <- (sqrt_Rsqr lam) at 5 by lra. rewrite <- sqrt_mult_alt by apply Rle_0_sqr. f_equal. unfold Rsqr. ring.
  Qed.
  Lemma ratio_units : forall p q, lam * p / (lam * q) = p / q.
  Proof. intros. unfold Rdiv. rewrite Rinv_mult. transitivity (lam * / lam * (p * / q)); [ring|]. rewrite Rinv_r by lra. ring. Qed.
  Lemma pixel_units : forall young a b x y, pixel (c * young) (lam * a) (lam * b) (lam * x) (lam * y) = lam / c * pixel young a b x y.
  Proof.
    intros. unfold pixel. rewrite <- !Rmult_plus_distr_l, <- !Rmult_minus_distr_l, !root_units.
    rewrite <- !Rmult_plus_distr_l, !ratio_units. unfold Rdiv. rewrite !Rinv_mult. ring.
  Qed.

  Definition fsub_units (s : fsub) : fsub :=
    mkFsub (hs_units c lam (f_hs s)) (f_dom s) (fun i j => lam / c * f_real s i j)
      (fun k l => RtoC (lam / c) * f_gf s k l)%C (fun k l => RtoC (c / lam) * f_ss s k l)%C (f_check s).

  Lemma new_on_units : forall dom a, new_on dom (base_args (free_in_units c lam a))
    = outcome (hs_units c lam) (new_on dom (base_args a)).
  Proof.
    intros dom a. unfold new_on, base_args, free_in_units. cbn [fa_grid fa_young fa_sizes fa_engine fa_check a_grid a_young a_sizes a_q0 a_thick a_poisson a_engine].
    destruct (negb _); [reflexivity|].
    rewrite extend_units. destruct (extend_sizes _ (fa_sizes a)) as [sizes|e]; [|reflexivity]. cbn [bind].
    rewrite steps_units. destruct (compute_steps sizes (fa_grid a)) as [steps|e]; [|reflexivity]. cbn [bind].
    destruct (Req_bool _ 0); [reflexivity|]. destruct (match fa_engine a with Some _ => _ | None => _ end); [reflexivity|].
    unfold outcome, hs_units. cbn. do 2 f_equal. unfold Rdiv. ring.
  Qed.
  Lemma dx_units : forall h, dx (hs_units c lam h) = lam * dx h.
  Proof. intros h. unfold dx. cbn [hs_units h_steps]. apply nth_scaled. Qed.
  Lemma dy_units : forall h, dy (hs_units c lam h) = lam * dy h.
  Proof. intros h. unfold dy. cbn [hs_units h_steps]. apply nth_scaled. Qed.
  Lemma stiffness_c_units : forall gf, compute_surface_stiffness_c (fun i j => RtoC (lam / c) * gf i j)%C
    = fun i j => (RtoC (c / lam) * compute_surface_stiffness_c gf i j)%C.
  Proof.
    intros gf. fext. unfold compute_surface_stiffness_c.
    assert (K : 0 < lam / c) by (apply Rdiv_lt_0_compat; assumption).
    assert (K' : RtoC (lam / c) <> RtoC 0) by (intros E; apply RtoC_inj in E; lra).
    assert (KI : RtoC (c / lam) = (/ RtoC (lam / c))%C).
    { rewrite <- RtoC_inv by lra. f_equal. field. lra. }
    destruct (Ceq_dec (gf x y) (RtoC 0)) as [E'|E'].
    - rewrite E', Cmult_0_r. destruct (Ceq_dec (RtoC 0) (RtoC 0)); [|congruence]. ring.
    - destruct (Ceq_dec (RtoC (lam / c) * gf x y)%C (RtoC 0)) as [E|E].
      + exfalso. apply Cmult_neq_0 in E; assumption.
      + rewrite KI. field. split; assumption.
  Qed.
  Lemma free_units : forall a, free_construct (free_in_units c lam a) = outcome fsub_units (free_construct a).
  Proof.
    intros a. unfold free_construct. change (fa_grid (free_in_units c lam a)) with (fa_grid a). rewrite new_on_units.
    destruct (new_on _ (base_args a)) as [h|e]; [|reflexivity]. cbn [bind outcome].
    change (dim (hs_units c lam h)) with (dim h). destruct (Nat.eqb (dim h) 1); [reflexivity|]. cbn [outcome]. unfold fsub_units.
    cbn [f_hs f_dom f_real f_gf f_ss f_check].
    assert (E : (fun i j => pixel (h_young (hs_units c lam h)) (dx (hs_units c lam h) * 0.5) (dy (hs_units c lam h) * 0.5)
        (free_coord (nx (hs_units c lam h)) i * dx (hs_units c lam h)) (free_coord (ny (hs_units c lam h)) j * dy (hs_units c lam h)))
      = (fun i j => lam / c * pixel (h_young h) (dx h * 0.5) (dy h * 0.5) (free_coord (nx h) i * dx h) (free_coord (ny h) j * dy h))).
    { fext. rewrite dx_units, dy_units, <- pixel_units. change (h_young (hs_units c lam h)) with (c * h_young h).
      change (nx (hs_units c lam h)) with (nx h). change (ny (hs_units c lam h)) with (ny h). f_equal; ring. }
    rewrite E, fft2_scaled, stiffness_c_units. reflexivity.
  Qed.
  Lemma Lsum_scal : forall A (l : list A) r f, Lsum l (fun i => r * f i) = r * Lsum l f.
  Proof.
    intros A l r f. unfold Lsum. assert (X : forall z, fold_left (fun s i => s + r * f i) l (r * z) = r * fold_left (fun s i => s + f i) l z).
    { induction l as [|x l IH]; intros z; cbn; [reflexivity|]. rewrite <- Rmult_plus_distr_l. apply IH. }
    rewrite <- X. f_equal. ring.
  Qed.
  Lemma Lsum_ext : forall A (l : list A) f g, (forall i, f i = g i) -> Lsum l f = Lsum l g.
  Proof. intros A l f g E. replace f with g; [reflexivity|]. apply functional_extensionality. intros i. symmetry. apply E. Qed.
  Lemma new_sizes : forall dom a h, new_on dom (base_args a) = Ret h -> List.length (h_sizes h) = List.length (fa_grid a).
  Proof.
    intros dom a h. unfold new_on. cbn [base_args a_grid a_q0 a_thick a_sizes a_poisson a_engine a_young]. destruct (negb _) eqn:D; [discriminate|].
    unfold extend_sizes. destruct (fa_sizes a) as [|x l].
    - destruct (List.length (fa_grid a)) as [|[|[|d]]]; discriminate.
    - cbn [bind]. destruct (compute_steps _ _); [|discriminate]. cbn [bind]. destruct (Req_bool _ _); [discriminate|].
      destruct (match fa_engine a with Some _ => _ | None => _ end); [discriminate|]. intros E. injection E as <-. cbn [h_sizes].
      rewrite map_length, seq_length. reflexivity.
  Qed.
  Lemma new_dim : forall dom a h, new_on dom (base_args a) = Ret h -> List.length (fa_grid a) = 1%nat \/ List.length (fa_grid a) = 2%nat.
  Proof.
    intros dom a h. unfold new_on. cbn [base_args a_grid]. destruct (negb _) eqn:D; [discriminate|]. intros _.
    apply negb_false_iff, orb_true_iff in D. destruct D as [D|D]; apply Nat.eqb_eq in D; tauto.
  Qed.
  Lemma semi_units : forall a, semi_construct (semi_in_units c lam a) = outcome fsub_units (semi_construct a).
  Proof.
    intros a. unfold semi_construct. cbn [semi_in_units sa_base sa_per sa_images]. change (fa_grid (free_in_units c lam (sa_base a))) with (fa_grid (sa_base a)).
    destruct (fa_grid (sa_base a)) as [|n0 [|n1 rest]] eqn:EG; [reflexivity|reflexivity|]. cbv zeta. rewrite new_on_units.
    destruct (new_on _ (base_args (sa_base a))) as [h|e] eqn:EN; [|reflexivity]. cbn [bind outcome]. unfold fsub_units.
    cbn [f_hs f_dom f_real f_gf f_ss f_check].
    assert (SZ : exists p q, h_sizes h = [p; q]).
    { pose proof (new_sizes _ _ _ EN) as SL. pose proof (new_dim _ _ _ EN) as D. rewrite EG in *.
      destruct (h_sizes h) as [|p [|q [|? ?]]]; cbn in SL, D; try lia; eauto. }
    destruct SZ as (p & q & SZ).
    assert (E : semi_real (hs_units c lam h) [semi_points (fst (sa_per a)) n0; semi_points (snd (sa_per a)) n1] (sa_per a) (sa_images a)
      = fun i j => lam / c * semi_real h [semi_points (fst (sa_per a)) n0; semi_points (snd (sa_per a)) n1] (sa_per a) (sa_images a) i j).
    { fext. unfold semi_real. rewrite <- Lsum_scal. apply Lsum_ext. intros ix. rewrite <- Lsum_scal. apply Lsum_ext. intros iy.
      unfold semi_inner. rewrite <- pixel_units, dx_units, dy_units. change (h_young (hs_units c lam h)) with (c * h_young h).
      change (nx (hs_units c lam h)) with (nx h). change (ny (hs_units c lam h)) with (ny h).
      unfold sx, sy. cbn [hs_units h_sizes]. rewrite SZ. cbn [map nth]. f_equal; unfold Rdiv; ring. }
    rewrite E, fft2_scaled, stiffness_c_units. reflexivity.
  Qed.

  (** ** The methods *)
  Section Methods.
    Variable s : fsub.
    Hypothesis SZ : List.length (h_sizes (f_hs s)) = 2%nat.
    Local Notation s' := (fsub_units s).
    Lemma area_free_units : area_per_pt (f_hs s') = lam * lam * area_per_pt (f_hs s).
    Proof. unfold area_per_pt. cbn [fsub_units f_hs hs_units h_sizes h_grid]. rewrite product_units, SZ. unfold Rdiv. ring. Qed.
    Lemma base_disp_units : forall f, base_disp s' (scaled (c * (lam * lam)) f) = outcome (scaled lam) (base_disp s f).
    Proof.
      intros f. unfold base_disp. rewrite area_free_units. cbn [scaled a_shape a_val fsub_units f_dom]. destruct (negb _); [reflexivity|].
      cbn [outcome]. unfold scaled. cbn [a_shape a_val]. do 2 f_equal. fext.
      change (domx s') with (domx s). change (domy s') with (domy s).
      replace (fun x y => - (c * (lam * lam) * a_val f x y)) with (fun x y => c * (lam * lam) * - a_val f x y) by (fext; ring).
      rewrite fft2_scaled. cbn [fsub_units f_gf].
      match goal with |- irfft2 _ _ ?F _ _ / _ * _ = lam * (irfft2 _ _ ?G _ _ / _ * _) =>
        replace F with (fun k l => RtoC (c * (lam * lam)) * (RtoC (lam / c) * G k l))%C by (fext; cbv beta; ring) end.
      rewrite !irfft2_scal. unfold Rdiv. rewrite !Rinv_mult.
      match goal with |- ?a * (?b * ?d) * ?e * ?f = ?g => transitivity ((c * / c) * (lam * / lam) * (lam * / lam) * lam * d * / area_per_pt (f_hs s) * f) end; [ring|].
      rewrite !Rinv_r by lra. ring.
    Qed.
    Lemma base_force_units : forall u, base_force s' (scaled lam u) = outcome (scaled (c * (lam * lam))) (base_force s u).
    Proof.
      intros u. unfold base_force. rewrite area_free_units. cbn [scaled a_shape a_val fsub_units f_dom]. destruct (negb _); [reflexivity|].
      cbn [outcome]. unfold scaled. cbn [a_shape a_val]. do 2 f_equal. fext.
      change (domx s') with (domx s). change (domy s') with (domy s). rewrite fft2_scaled. cbn [fsub_units f_ss].
      match goal with |- - irfft2 _ _ ?F _ _ * _ * _ = _ * (- irfft2 _ _ ?G _ _ * _ * _) =>
        replace F with (fun k l => RtoC lam * (RtoC (c / lam) * G k l))%C by (fext; cbv beta; ring) end.
      rewrite !irfft2_scal. unfold Rdiv.
      match goal with |- - (lam * (_ * ?d)) * _ * ?f = _ => transitivity ((lam * / lam) * (- c * d * (lam * lam) * area_per_pt (f_hs s) * f)); [ring|] end.
      rewrite !Rinv_r by lra. ring.
    Qed.
    Lemma zero_pad_scaled : forall g r f, zero_pad g (fun x y => r * f x y) = fun x y => r * zero_pad g f x y.
    Proof. intros. fext. unfold zero_pad. destruct (andb _ _); ring. Qed.
    Lemma free_disp_units : forall f p, free_disp s' (scaled (c * (lam * lam)) f) p = outcome (scaled lam) (free_disp s f p).
    Proof.
      intros f p. unfold free_disp. change (f_dom s') with (f_dom s). change (topo_shape s') with (topo_shape s). cbn [scaled a_shape a_val].
      destruct (shape_eqb (a_shape f) (f_dom s)); [apply base_disp_units|]. destruct (shape_eqb _ _); [|reflexivity].
      rewrite zero_pad_scaled. cbv zeta.
      pose proof (base_disp_units (mkArr (f_dom s) (zero_pad (topo_shape s) (a_val f)))) as E. unfold scaled in E at 1. cbn [a_shape a_val] in E. rewrite E.
      destruct p; [reflexivity|]. destruct (base_disp s _); reflexivity.
    Qed.
    Lemma semi_force_units : forall u, semi_force s' (scaled lam u) = outcome (scaled (c * (lam * lam))) (semi_force s u).
    Proof.
      intros u. unfold semi_force. change (f_dom s') with (f_dom s). change (domx s') with (domx s). change (domy s') with (domy s). cbn [scaled a_shape a_val].
      destruct (shape_eqb (a_shape u) (f_dom s)); [apply base_force_units|]. destruct (a_shape u) as [|n0 [|n1 [|? ?]]]; try reflexivity.
      destruct (andb _ _); [|reflexivity]. rewrite zero_pad_scaled. exact (base_force_units (mkArr (f_dom s) (zero_pad [n0; n1] (a_val u)))).
    Qed.
    Lemma ravel_units : forall u f, ravel_dot (scaled lam u) (amap Ropp (scaled (c * (lam * lam)) f)) = outcome (Rmult (c * lam ^ 3)) (ravel_dot u (amap Ropp f)).
    Proof.
      intros u f. unfold ravel_dot. cbn [scaled amap a_shape]. destruct (Nat.eqb _ _); [|reflexivity]. cbn [outcome]. f_equal.
      rewrite <- Rsum_scal. apply Rsum_ext. intros k _. unfold flat, scaled, amap. cbn [a_shape a_val].
      destruct (a_shape u) as [|? [|? [|? ?]]]; destruct (a_shape f) as [|? [|? [|? ?]]]; cbn; try ring.
    Qed.
    Lemma copy_units : forall g u, copy_into g (scaled lam u) = outcome (fun v x y => lam * v x y) (copy_into g u).
    Proof.
      intros g u. unfold copy_into. cbn [scaled a_shape a_val].
      destruct g as [|N [|M [|? ?]]]; destruct (a_shape u) as [|n1 [|m1 [|? ?]]]; try reflexivity;
        match goal with |- context [if ?b then _ else _] => destruct b; reflexivity end.
    Qed.
    Lemma local_scal : forall sb r loc n A B, local_scalar_product sb loc n A (fun k l => RtoC r * B k l)%C = r * local_scalar_product sb loc n A B.
    Proof.
      intros sb r loc n A B. unfold local_scalar_product. destruct (Nat.eqb (fst n * snd n) 0); [ring|].
      assert (RD : forall i, Re (Csum (snd n) (fun j => Cconj (A i j) * (RtoC r * B i j))%C) = r * Re (Csum (snd n) (fun j => Cconj (A i j) * B i j)%C)).
      { intros i. rewrite (Csum_ext (snd n) _ (fun j => RtoC r * (Cconj (A i j) * B i j))%C) by (intros; ring).
        rewrite Csum_scal. destruct (Csum _ _) as [a b]. cbn. ring. }
      rewrite !RD. rewrite (Rsum_ext _ _ (fun i => r * Re (Csum (snd n) (fun j => Cconj (A (1 + i)%nat j) * B (1 + i)%nat j)%C))) by (intros; apply RD).
      rewrite Rsum_scal. unfold Rdiv. ring.
    Qed.
    Lemma local_scal_l : forall sb r loc n A B, local_scalar_product sb loc n (fun k l => RtoC r * A k l)%C B = r * local_scalar_product sb loc n A B.
    Proof.
      intros sb r loc n A B. rewrite <- local_scal. unfold local_scalar_product. destruct (Nat.eqb (fst n * snd n) 0); [reflexivity|].
      assert (RD : forall i, Csum (snd n) (fun j => Cconj (RtoC r * A i j) * B i j)%C = Csum (snd n) (fun j => Cconj (A i j) * (RtoC r * B i j))%C).
      { intros i. apply Csum_ext. intros j _. rewrite Cconj_mult, Cconj_RtoC. ring. }
      rewrite !RD. rewrite (Rsum_ext _ _ (fun i => Re (Csum (snd n) (fun j => Cconj (A (1 + i)%nat j) * (RtoC r * B (1 + i)%nat j))%C))) by (intros; rewrite RD; reflexivity).
      reflexivity.
    Qed.
    Lemma f_evaluate_units : forall frc frc' u pot forces, (forall u, frc' (scaled lam u) = outcome (scaled (c * (lam * lam))) (frc u)) ->
      f_evaluate frc' s' (scaled lam u) pot forces
      = outcome (fun r => (option_map (Rmult (c * lam ^ 3)) (fst r), option_map (scaled (c * (lam * lam))) (snd r))) (f_evaluate frc s u pot forces).
    Proof.
      intros frc frc' u pot forces FR. unfold f_evaluate. destruct forces.
      - rewrite FR. destruct (frc u) as [f|e]; [|reflexivity]. cbn [bind outcome]. destruct pot; [|reflexivity].
        rewrite ravel_units. destruct (ravel_dot u _) as [p|e]; [|reflexivity]. cbn. do 3 f_equal. ring.
      - destruct pot; [|reflexivity]. change (f_dom s') with (f_dom s). rewrite copy_units. destruct (copy_into (f_dom s) u) as [v|e]; [|reflexivity].
        cbn [bind outcome]. cbv zeta. rewrite area_free_units. change (domx s') with (domx s). change (domy s') with (domy s).
        change (dom_sub s') with (dom_sub s). rewrite fft2_scaled. cbn [fst snd option_map]. do 3 f_equal.
        unfold evaluate_elastic_energy_k_space, scalar_product_k, serial_ranks. cbn [map fold_right fst snd].
        cbn [fsub_units f_ss].
        set (uk := fft2 (domx s) (domy s) v).
        match goal with |- -0.5 * (local_scalar_product ?d ?lo ?n (fun i j => RtoC lam * uk (0 + i)%nat (0 + j)%nat)%C ?F + 0) = _ =>
          replace F with (fun i j => RtoC (c * (lam * lam)) * (- f_ss s (0 + i)%nat (0 + j)%nat * uk (0 + i)%nat (0 + j)%nat * RtoC (area_per_pt (f_hs s))))%C end.
        2:{ fext. rewrite !RtoC_mult. unfold Rdiv. rewrite RtoC_mult, RtoC_inv by lra. field. intros Z. apply RtoC_inj in Z. lra. }
        rewrite local_scal, local_scal_l. ring.
    Qed.
    Lemma check_units : forall u, f_check_force s' (scaled (c * (lam * lam)) u) = f_check_force s u.
    Proof.
      intros u. unfold f_check_force, check. cbn [fsub_units f_check]. destruct (f_check s); [|reflexivity].
      change (nx (hs_units c lam (f_hs s))) with (nx (f_hs s)). change (ny (hs_units c lam (f_hs s))) with (ny (f_hs s)).
      change (nx (f_hs s')) with (nx (f_hs s)). change (ny (f_hs s')) with (ny (f_hs s)).
      change (domx s') with (domx s). change (domy s') with (domy s). unfold check_boundaries.
      assert (K : 0 < c * (lam * lam)) by (repeat apply Rmult_lt_0_compat; assumption).
      assert (CV : forall l, check_vals 0 (map (option_map (Rmult (c * (lam * lam)))) l) = check_vals 0 l).
      { intros l. unfold check_vals. rewrite map_length. f_equal; [f_equal; [|f_equal]|].
        - induction l as [|[r|] l IH]; cbn; [reflexivity| |exact IH]. rewrite IH. f_equal. unfold Rle_bool.
          rewrite Rabs_mult, (Rabs_right (c * (lam * lam))) by lra.
          destruct (Rle_dec (c * (lam * lam) * Rabs r) 0); destruct (Rle_dec (Rabs r) 0); try reflexivity; exfalso; pose proof (Rabs_pos r); nra.
        - induction l as [|[r|] l IH]; cbn; [reflexivity|reflexivity|exact IH].
        - induction l as [|[r|] l IH]; cbn; [reflexivity|reflexivity|exact IH]. }
      assert (CL : forall n d F, check_local n 0 d (fun i j => option_map (Rmult (c * (lam * lam))) (F i j)) = check_local n 0 d F).
      { intros n d F. unfold check_local. f_equal.
        - f_equal. apply functional_extensionality. intros j. rewrite <- (CV (map (fun i => F i j) _)), map_map. reflexivity.
        - f_equal. apply functional_extensionality. intros i. rewrite <- (CV (map (fun j => F i j) _)), map_map. reflexivity. }
      cbn [forallb d_loc fst snd scaled a_val]. rewrite <- (CL _ _ (fun i j => Some (a_val u (0 + i)%nat (0 + j)%nat))). reflexivity.
    Qed.
  End Methods.
  Lemma child_sizes_units : forall h g, child_sizes (hs_units c lam h) g = map (Rmult lam) (child_sizes h g).
  Proof.
    intros h g. unfold child_sizes. cbn [hs_units h_grid h_sizes]. revert g. generalize (h_grid h) (h_sizes h).
    intros l. induction l as [|n l IH]; intros [|x sz] [|m g]; try reflexivity. cbn. rewrite IH. f_equal. ring.
  Qed.
End Units.
