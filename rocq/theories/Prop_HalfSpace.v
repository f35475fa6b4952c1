(** * Properties of [PeriodicFFTElasticHalfSpace] (C20-C32)

    Vocabulary: [HalfSpace_Spec].  [construct a = Ret s] says that the
    constructor call with arguments [a] succeeded in a serial run and produced
    [s]; [construct_on a loc n] is the object of a process owning the Fourier
    subdomain starting at [loc] with [n] points.  [pos_args a]: positive sizes
    and modulus, |nu| < 1, [stiffness_q0 >= 0], positive thickness. *)
From Coq Require Import Reals ZArith Lia Lra List Arith Bool.
From Coquelicot Require Import Complex Coquelicot.
From Verif Require Import Py FFT_Base HalfSpace_Model HalfSpace_Spec
  HalfSpace_Proofs HalfSpace_Results HalfSpace_Results2 HalfSpace_Results3
  HalfSpace_Witness Thickness.
Import ListNotations.
Local Open Scope R_scope.

(** ** C20 Force and displacement evaluation are inverse to each other *)
Theorem C20_inverse : forall a s f, construct a = Ret s -> pos_args a ->
  a_q0 a <> Some 0 ->
  (exists u f', evaluate_disp s (mkArr (a_grid a) f) = Ret u /\ evaluate_force s u = Ret f'
     /\ same_on (a_grid a) (a_val f') f) /\
  (exists u f', evaluate_force s (mkArr (a_grid a) f) = Ret u /\ evaluate_disp s u = Ret f'
     /\ same_on (a_grid a) (a_val f') f).
Proof.
  intros a s f H Hp Hq.
  assert (R0 : removed_mean a f = 0).
  { unfold removed_mean. destruct (a_q0 a) as [q|]; [|reflexivity].
    destruct (Req_EM_T q 0); [congruence|reflexivity]. }
  split.
  - destruct (force_of_disp a s (mkArr (a_grid a) f) H Hp eq_refl) as (u&f'&H1&H2&H3).
    exists u, f'. split; [exact H1|]. split; [exact H2|]. intros x y Hg.
    rewrite (H3 x y Hg). cbn [a_val]. rewrite R0. ring.
  - destruct (disp_of_force a s (mkArr (a_grid a) f) H Hp eq_refl) as (u&f'&H1&H2&H3).
    exists u, f'. split; [exact H1|]. split; [exact H2|]. intros x y Hg.
    rewrite (H3 x y Hg). cbn [a_val]. rewrite R0. ring.
Qed.
Print Assumptions C20_inverse.

Theorem C20_inverse_up_to_mean : forall a s f, construct a = Ret s -> pos_args a ->
  a_q0 a = Some 0 ->
  (exists u f', evaluate_disp s (mkArr (a_grid a) f) = Ret u /\ evaluate_force s u = Ret f'
     /\ same_on (a_grid a) (a_val f') (fun x y => f x y - mean (a_grid a) f)) /\
  (exists u f', evaluate_force s (mkArr (a_grid a) f) = Ret u /\ evaluate_disp s u = Ret f'
     /\ same_on (a_grid a) (a_val f') (fun x y => f x y - mean (a_grid a) f)).
Proof.
  intros a s f H Hp Hq.
  assert (R0 : removed_mean a f = mean (a_grid a) f).
  { unfold removed_mean. rewrite Hq. destruct (Req_EM_T 0 0); [reflexivity|congruence]. }
  split.
  - destruct (force_of_disp a s (mkArr (a_grid a) f) H Hp eq_refl) as (u&f'&H1&H2&H3).
    exists u, f'. split; [exact H1|]. split; [exact H2|]. intros x y Hg.
    rewrite (H3 x y Hg). cbn [a_val]. rewrite R0. ring.
  - destruct (disp_of_force a s (mkArr (a_grid a) f) H Hp eq_refl) as (u&f'&H1&H2&H3).
    exists u, f'. split; [exact H1|]. split; [exact H2|]. intros x y Hg.
    rewrite (H3 x y Hg). cbn [a_val]. rewrite R0. ring.
Qed.
Print Assumptions C20_inverse_up_to_mean.
Example C20_nonvacuous :
  ((exists s, construct hsA = Ret s) /\ pos_args hsA /\ a_q0 hsA <> Some 0)
  /\ ((exists s, construct hsB = Ret s) /\ pos_args hsB /\ a_q0 hsB = Some 0)
  /\ ((exists s, construct hsC = Ret s) /\ pos_args hsC)
  /\ ((exists s, construct hsD = Ret s) /\ pos_args hsD).
Proof.
  split; [split; [exact hsA_ok|split; [exact hsA_pos|discriminate]]|].
  split; [split; [exact hsB_ok|split; [exact hsB_pos|reflexivity]]|].
  split; [exact (conj hsC_ok hsC_pos)|exact (conj hsD_ok hsD_pos)].
Qed.

(** ** C21 Linearity and translation invariance *)
Theorem C21_linear : forall a s, construct a = Ret s ->
  forall ev, ev = evaluate_disp s \/ ev = evaluate_force s ->
  forall al be f f', exists u u' v,
    ev (mkArr (a_grid a) f) = Ret u /\ ev (mkArr (a_grid a) f') = Ret u'
    /\ ev (mkArr (a_grid a) (fun x y => al * f x y + be * f' x y)) = Ret v
    /\ same_on (a_grid a) (a_val v) (fun x y => al * a_val u x y + be * a_val u' x y).
Proof.
  intros a s H ev [E|E]; subst ev.
  - exact (multiplier_linear _ _ _ _ (disp_multiplier a s H)).
  - exact (multiplier_linear _ _ _ _ (force_multiplier a s H)).
Qed.
Print Assumptions C21_linear.

Theorem C21_translation : forall a s, construct a = Ret s ->
  forall ev, ev = evaluate_disp s \/ ev = evaluate_force s ->
  forall f m n, exists u v,
    ev (mkArr (a_grid a) f) = Ret u
    /\ ev (mkArr (a_grid a) (translate (a_grid a) m n f)) = Ret v
    /\ same_on (a_grid a) (a_val v) (translate (a_grid a) m n (a_val u)).
Proof.
  intros a s H ev [E|E]; subst ev.
  - exact (multiplier_translate _ _ _ _ (disp_multiplier a s H)).
  - exact (multiplier_translate _ _ _ _ (force_multiplier a s H)).
Qed.
Print Assumptions C21_translation.
(* The shift really moves the field. *)
Example C21_nonvacuous :
  translate [4; 3]%nat 1 2 (fun x y => INR (3 * x + y)%nat) 3%nat 2%nat = INR (3 * 0 + 1)%nat
  /\ exists s, construct hsA = Ret s.
Proof. exact (conj eq_refl hsA_ok). Qed.

(** ** C22 Reciprocity *)
Theorem C22_reciprocity : forall a s, construct a = Ret s ->
  forall ev, ev = evaluate_disp s \/ ev = evaluate_force s ->
  forall f f', exists u u',
    ev (mkArr (a_grid a) f) = Ret u /\ ev (mkArr (a_grid a) f') = Ret u'
    /\ inner (a_grid a) f (a_val u') = inner (a_grid a) f' (a_val u).
Proof.
  intros a s H ev [E|E]; subst ev.
  - exact (multiplier_selfadjoint _ _ _ _ (disp_multiplier a s H)).
  - exact (multiplier_selfadjoint _ _ _ _ (force_multiplier a s H)).
Qed.
Print Assumptions C22_reciprocity.
Example C22_nonvacuous : exists s, construct hsC = Ret s.
Proof. exact hsC_ok. Qed.

(** ** C23 Elastic energy is non-negative *)
Theorem C23_energy_nonneg : forall a s u, construct a = Ret s -> pos_args a ->
  exists E f, evaluate s (mkArr (a_grid a) u) true true = Ret (Some E, Some f) /\ 0 <= E
    /\ (E = 0 -> (forall x y, on_grid (a_grid a) x y -> u x y = mean (a_grid a) u)
                 /\ (a_q0 a <> Some 0 -> forall x y, on_grid (a_grid a) x y -> u x y = 0)).
Proof.
  intros a s u H Hp. destruct (evaluate_energy_of a s u H) as (f&H1&_).
  exists (energy_of a s u), f. split; [exact H1|]. split; [exact (energy_nonneg a s u H Hp)|].
  intros E0. destruct (energy_zero a s u H Hp E0) as [A B]. split; [exact A|].
  intros Hq x y Hg. rewrite (A x y Hg). exact (B Hq).
Qed.
Print Assumptions C23_energy_nonneg.
Example C23_nonvacuous : (exists s, construct hsB = Ret s) /\ pos_args hsB.
Proof. exact (conj hsB_ok hsB_pos). Qed.

(** ** C24 Real-space and Fourier-space energies agree *)
Theorem C24_energies_agree : forall a s u, construct a = Ret s ->
  exists E f, evaluate s (mkArr (a_grid a) u) true true = Ret (Some E, Some f)
    /\ evaluate s (mkArr (a_grid a) u) true false = Ret (Some E, None)
    /\ forall forces,
       fst (evaluate_k s (fft2 (gx (a_grid a)) (gy (a_grid a)) u) true forces) = Some E.
Proof.
  intros a s u H. destruct (evaluate_energy_of a s u H) as (f&H1&_).
  assert (SD : decomposition (gx (a_grid a) / 2 + 1) (gy (a_grid a)) (serial_ranks s)).
  { rewrite <- (nx_gx a s H), <- (ny_gy a s H). apply serial_decomposition. }
  pose proof (energy_k_eq a s _ u H SD) as EK.
  exists (energy_of a s u), f. split; [exact H1|]. split.
  - unfold evaluate. rewrite (hs_grid a s H). destruct (grid_dims a s H) as [D1 D2].
    destruct (copy_same (a_grid a) u D1 D2) as (v & -> & SV). cbn [bind]. rewrite (nx_gx a s H), (ny_gy a s H).
    rewrite (fft2_same _ v u SV), EK. reflexivity.
  - intros [|]; unfold evaluate_k; cbn [fst]; rewrite EK; reflexivity.
Qed.
Print Assumptions C24_energies_agree.
(* [evaluate_k] with forces = False still returns the force: documented
   otherwise. *)
Theorem C24_evaluate_k_returns_force : forall s uk,
  exists fk, snd (evaluate_k s uk true false) = Some fk.
Proof. intros. eexists. reflexivity. Qed.
Print Assumptions C24_evaluate_k_returns_force.
Example C24_nonvacuous : (exists s, construct hsA = Ret s) /\ (exists s, construct hsC = Ret s).
Proof. exact (conj hsA_ok hsC_ok). Qed.

(** ** C25 Force is minus the gradient of the energy *)
Theorem C25_expansion : forall a s u v, construct a = Ret s ->
  exists Eu Ev Euv f fv fuv,
    evaluate s (mkArr (a_grid a) u) true true = Ret (Some Eu, Some f)
    /\ evaluate s (mkArr (a_grid a) v) true true = Ret (Some Ev, Some fv)
    /\ evaluate s (mkArr (a_grid a) (fun x y => u x y + v x y)) true true
       = Ret (Some Euv, Some fuv)
    /\ Euv = Eu - inner (a_grid a) (a_val f) v + Ev.
Proof.
  intros a s u v H.
  destruct (evaluate_energy_of a s u H) as (f&H1&_&H1').
  destruct (evaluate_energy_of a s v H) as (fv&H2&_).
  destruct (evaluate_energy_of a s (fun x y => u x y + v x y) H) as (fuv&H3&_).
  exists (energy_of a s u), (energy_of a s v), (energy_of a s (fun x y => u x y + v x y)), f, fv, fuv.
  split; [exact H1|]. split; [exact H2|]. split; [exact H3|].
  rewrite (energy_expand a s u v H). unfold inner, total, dot.
  rewrite <- Rsum2_scal.
  rewrite (Rsum2_ext _ _ (fun x y => a_val f x y * v x y)
     (fun x y => -1 * (area_per_pt (s_hs s) *
        (mult (gx (a_grid a)) (gy (a_grid a)) (SS s) u x y * v x y)))).
  2:{ intros x y Hx Hy. rewrite (H1' x y (conj Hx Hy)). ring. }
  rewrite (Rsum2_scal _ _ (-1)). ring.
Qed.
Print Assumptions C25_expansion.

Theorem C25_gradient : forall a s u v E, construct a = Ret s ->
  (forall t, exists f,
     evaluate s (mkArr (a_grid a) (fun x y => u x y + t * v x y)) true true
     = Ret (Some (E t), Some f)) ->
  exists f, evaluate_force s (mkArr (a_grid a) u) = Ret f
    /\ is_derive E 0 (- inner (a_grid a) (a_val f) v).
Proof.
  intros a s u v E H HE.
  destruct (evaluate_energy_of a s u H) as (f&H1&H1f&H1').
  exists f. split; [exact H1f|].
  set (d := inner (a_grid a) (a_val f) v).
  assert (EQ : forall t, E t = energy_of a s u - t * d + t ^ 2 * energy_of a s v).
  { intros t. destruct (HE t) as [ft Ht].
    destruct (C25_expansion a s u (fun x y => t * v x y) H)
      as (Eu&Ev&Euv&g&gv&guv&K1&K2&K3&K4).
    rewrite H1 in K1. injection K1 as K1 K1'. subst g.
    rewrite Ht in K3. injection K3 as K3 K3'. subst Euv.
    rewrite K4, <- K1. f_equal; [f_equal|].
    - unfold d, inner, total. rewrite <- Rsum2_scal. apply Rsum2_ext. intros. ring.
    - destruct (evaluate_energy_of a s (fun x y => t * v x y) H) as (f2&L2&_).
      rewrite L2 in K2. injection K2 as K2 _. rewrite <- K2.
      unfold energy_of, dot.
      rewrite (Rsum2_ext _ _ _ (fun x y => t ^ 2 *
        (v x y * mult (gx (a_grid a)) (gy (a_grid a)) (SS s) v x y))).
      2:{ intros x y Hx Hy. destruct (force_multiplier a s H) as (P1&P2&PH&_).
          rewrite mult_scal_r by assumption. ring. }
      rewrite Rsum2_scal. ring. }
  apply (is_derive_ext (fun t => energy_of a s u - t * d + t ^ 2 * energy_of a s v)).
  { intros t. symmetry. apply EQ. }
  auto_derive; [exact I|]. ring.
Qed.
Print Assumptions C25_gradient.
Example C25_nonvacuous : exists s, construct hsA = Ret s /\
  exists E : R -> R, forall t, exists f,
    evaluate s (mkArr (a_grid hsA) (fun x y => INR x + t * INR y)) true true
    = Ret (Some (E t), Some f).
Proof.
  destruct hsA_ok as [s Hs]. exists s. split; [exact Hs|].
  exists (fun t => energy_of hsA s (fun x y => INR x + t * INR y)). intros t.
  destruct (evaluate_energy_of hsA s (fun x y => INR x + t * INR y) Hs) as (f&H1&_).
  exists f. exact H1.
Qed.

(** ** C26 Net force *)
Theorem C26_net_force : forall a s u q, construct a = Ret s -> pos_args a ->
  a_q0 a = Some q ->
  exists f, evaluate_force s (mkArr (a_grid a) u) = Ret f
    /\ total (a_grid a) (a_val f)
       = - q * point_area (a_grid a) (a_sizes a) * total (a_grid a) u.
Proof.
  intros a s u q H Hp Hq.
  destruct (multiplier_total _ _ _ _ (force_multiplier a s H) u) as (f&H1&H2).
  exists f. split; [exact H1|]. rewrite H2. unfold SS. cbn [Re RtoC fst].
  rewrite (ss_q0 a s q H Hp Hq), (point_area_eq a s H). ring.
Qed.
Print Assumptions C26_net_force.

(* Default zero-wavevector stiffness: that of the longest wave(s). *)
Theorem C26_net_force_default : forall a s u, construct a = Ret s -> pos_args a ->
  a_q0 a = None -> a_thick a = None ->
  let w := wavenumber (a_grid a) (cell_size (a_sizes a) 0) (cell_size (a_sizes a) 1) in
  let k0 := contact_modulus (a_young a) (a_poisson a) / 2 *
            (if Nat.eqb (length (a_grid a)) 1 then w 1%nat 0%nat
             else (w 1%nat 0%nat + w 0%nat 1%nat) / 2) in
  exists f, evaluate_force s (mkArr (a_grid a) u) = Ret f
    /\ total (a_grid a) (a_val f)
       = - k0 * point_area (a_grid a) (a_sizes a) * total (a_grid a) u.
Proof.
  intros a s u H Hp Hq Ht w k0.
  destruct (multiplier_total _ _ _ _ (force_multiplier a s H) u) as (f&H1&H2).
  exists f. split; [exact H1|]. rewrite H2. unfold SS. cbn [Re RtoC fst].
  rewrite (point_area_eq a s H).
  destruct (ss_default a s H Hp Hq (or_introl Ht)) as [E [I1 I2]].
  destruct (gx_pos a s H) as [P1 P2].
  rewrite E. unfold k0, w.
  rewrite (ss_infinite a s 1 0 H Hp); try (split; lia); try (unfold zero_wave; lia); [|left; exact Ht].
  destruct (Nat.eqb_spec (length (a_grid a)) 1) as [L|L]; [ring|].
  destruct I2 as [I2|I2]; [contradiction|].
  rewrite (ss_infinite a s 0 1 H Hp); try (split; lia); try (unfold zero_wave; lia); [|left; exact Ht].
  field.
Qed.
Print Assumptions C26_net_force_default.

Theorem C26_net_force_thickness : forall a s u t, construct a = Ret s -> pos_args a ->
  length (a_grid a) = 2%nat -> a_thick a = Some t ->
  exists f, evaluate_force s (mkArr (a_grid a) u) = Ret f
    /\ total (a_grid a) (a_val f)
       = - uniaxial_stiffness (a_young a) (a_poisson a) t
         * point_area (a_grid a) (a_sizes a) * total (a_grid a) u.
Proof.
  intros a s u t H Hp L Ht.
  destruct (multiplier_total _ _ _ _ (force_multiplier a s H) u) as (f&H1&H2).
  exists f. split; [exact H1|]. rewrite H2. unfold SS. cbn [Re RtoC fst].
  rewrite (ss_thick_0 a s t H Hp L Ht), (point_area_eq a s H). ring.
Qed.
Print Assumptions C26_net_force_thickness.
Example C26_nonvacuous :
  ((exists s, construct hsB = Ret s) /\ pos_args hsB /\ a_q0 hsB = Some 0)
  /\ ((exists s, construct hsE = Ret s) /\ pos_args hsE /\ a_q0 hsE = Some 7)
  /\ ((exists s, construct hsD = Ret s) /\ pos_args hsD /\ a_thick hsD = Some 3).
Proof.
  split; [split; [exact hsB_ok|split; [exact hsB_pos|reflexivity]]|].
  split; [split; [exact hsE_ok|split; [exact hsE_pos|reflexivity]]|].
  split; [exact hsD_ok|split; [exact hsD_pos|reflexivity]].
Qed.

(** ** C27 A sinusoidal displacement is an eigenmode *)
Theorem C27_eigenmode : forall a s p q phi, construct a = Ret s -> pos_args a ->
  (a_thick a = None \/ length (a_grid a) = 1%nat) ->
  on_grid (a_grid a) p q -> ~ (p = 0 /\ q = 0)%nat ->
  exists f, evaluate_force s (mkArr (a_grid a) (plane_wave (a_grid a) p q phi)) = Ret f
    /\ same_on (a_grid a) (a_val f) (fun x y =>
         - point_area (a_grid a) (a_sizes a)
         * (contact_modulus (a_young a) (a_poisson a) / 2
            * wavenumber (a_grid a) (cell_size (a_sizes a) 0) (cell_size (a_sizes a) 1) p q)
         * plane_wave (a_grid a) p q phi x y).
Proof.
  intros a s p q phi H Hp Ht Hg Hz.
  destruct (multiplier_wave _ _ _ _ (force_multiplier a s H) p q phi (proj1 Hg) (proj2 Hg))
    as (f&H1&H2).
  exists f. split; [exact H1|]. intros x y Hxy. rewrite (H2 x y Hxy).
  unfold SS. cbn [Re RtoC fst].
  rewrite (ss_infinite a s p q H Hp Hg Hz Ht), (point_area_eq a s H). reflexivity.
Qed.
Print Assumptions C27_eigenmode.
Example C27_nonvacuous : (exists s, construct hsA = Ret s) /\ pos_args hsA
  /\ a_thick hsA = None /\ on_grid (a_grid hsA) 3 1
  /\ wavenumber (a_grid hsA) 2 5 3 1 = 2 * PI * sqrt ((1/2) ^ 2 + (1/5) ^ 2).
Proof.
  refine (conj hsA_ok (conj hsA_pos (conj eq_refl (conj _ _)))).
  - split; cbn; lia.
  - unfold wavenumber. cbn. repeat f_equal; lra.
Qed.

(** ** C28 x/y exchange symmetry *)
Theorem C28_exchange : forall a s n m lx ly f, construct a = Ret s ->
  a_grid a = [n; m] -> a_sizes a = [lx; ly] -> 0 < lx -> 0 < ly ->
  exists s', construct (mkArgs [m; n] (a_young a) [ly; lx] (a_q0 a) (a_thick a) (a_poisson a)
      (match a_engine a with Some g => Some (rev g) | None => None end)) = Ret s'
  /\ (exists u u', evaluate_disp s (mkArr [n; m] f) = Ret u
       /\ evaluate_disp s' (mkArr [m; n] (transpose f)) = Ret u'
       /\ same_on [m; n] (a_val u') (transpose (a_val u)))
  /\ (exists u u', evaluate_force s (mkArr [n; m] f) = Ret u
       /\ evaluate_force s' (mkArr [m; n] (transpose f)) = Ret u'
       /\ same_on [m; n] (a_val u') (transpose (a_val u))).
Proof.
  intros a s n m lx ly f H Eg Es Px Py.
  destruct (swap_ok a s n m lx ly H Eg Es) as [s' H']. exists s'.
  assert (Eg' : a_grid (swap_args a) = [m; n]) by (simpl; rewrite Eg; reflexivity).
  destruct (gf_swap a s s' n m lx ly H H' Eg Es Px Py) as [G A].
  split.
  { rewrite <- H'. f_equal. unfold swap_args. rewrite Eg, Es. reflexivity. }
  pose proof (disp_multiplier a s H) as (P1&P2&D3&_&D).
  pose proof (disp_multiplier _ s' H') as (_&_&D3'&_&D').
  pose proof (force_multiplier a s H) as (_&_&F3&_&F).
  pose proof (force_multiplier _ s' H') as (_&_&F3'&_&F').
  rewrite Eg in *. rewrite Eg' in *. cbn [gx gy nth] in *.
  split.
  - destruct (D (mkArr [n; m] f) eq_refl) as (u&U1&_&U2).
    destruct (D' (mkArr [m; n] (transpose f)) eq_refl) as (u'&V1&_&V2).
    exists u, u'. split; [exact U1|]. split; [exact V1|].
    intros y x [Hy Hx]. cbn [gx gy nth] in Hx, Hy. unfold transpose at 1.
    rewrite (U2 x y (conj Hx Hy)), (V2 y x (conj Hy Hx)), A. cbn [a_val]. f_equal.
    apply mult_transpose; try assumption.
    intros k l Hk Hl. unfold GF. rewrite (G k l Hk Hl). reflexivity.
  - destruct (F (mkArr [n; m] f) eq_refl) as (u&U1&_&U2).
    destruct (F' (mkArr [m; n] (transpose f)) eq_refl) as (u'&V1&_&V2).
    exists u, u'. split; [exact U1|]. split; [exact V1|].
    intros y x [Hy Hx]. cbn [gx gy nth] in Hx, Hy. unfold transpose at 1.
    rewrite (U2 x y (conj Hx Hy)), (V2 y x (conj Hy Hx)), A. cbn [a_val]. f_equal.
    apply mult_transpose; try assumption.
    intros k l Hk Hl. unfold SS.
    destruct (construct_inv a s H) as [_ [_ Es1]].
    destruct (construct_inv _ s' H') as [_ [_ Es2]].
    rewrite Es1, Es2. unfold compute_surface_stiffness. rewrite (G k l Hk Hl). reflexivity.
Qed.
Print Assumptions C28_exchange.
Example C28_nonvacuous : (exists s, construct hsA = Ret s) /\ a_grid hsA = [4; 3]%nat
  /\ a_sizes hsA = [2; 5].
Proof. exact (conj hsA_ok (conj eq_refl eq_refl)). Qed.

(** ** C29 Fourier-space scalar product is decomposition independent *)
Theorem C29_scalar_product : forall a s ranks f g, construct a = Ret s ->
  decomposition (gx (a_grid a) / 2 + 1) (gy (a_grid a)) ranks ->
  scalar_product_k s ranks (fft2 (gx (a_grid a)) (gy (a_grid a)) f)
                           (fft2 (gx (a_grid a)) (gy (a_grid a)) g)
  = inner (a_grid a) f g.
Proof. exact scalar_product_real. Qed.
Print Assumptions C29_scalar_product.
Theorem C29_energy : forall a s ranks u, construct a = Ret s ->
  decomposition (gx (a_grid a) / 2 + 1) (gy (a_grid a)) ranks ->
  exists f, evaluate s (mkArr (a_grid a) u) true true =
    Ret (Some (evaluate_elastic_energy_k_space s ranks
      (evaluate_k_force_k s (fft2 (gx (a_grid a)) (gy (a_grid a)) u))
      (fft2 (gx (a_grid a)) (gy (a_grid a)) u)), Some f).
Proof.
  intros a s ranks u H D. destruct (evaluate_energy_of a s u H) as (f&H1&_).
  exists f. rewrite H1. rewrite (energy_k_eq a s ranks u H D). reflexivity.
Qed.
Print Assumptions C29_energy.
(* Four processes for the 3 x 3 Fourier points of a 4 x 3 grid, one without
   any point. *)
Example C29_nonvacuous : (exists s, construct hsA = Ret s)
  /\ decomposition (gx (a_grid hsA) / 2 + 1) (gy (a_grid hsA))
       [((0, 0), (1, 3)); ((1, 0), (1, 2)); ((1, 2), (1, 1)); ((2, 0), (0, 3)); ((2, 0), (1, 3))]%nat.
Proof.
  refine (conj hsA_ok (conj _ _)).
  - intros r Hr. cbn in Hr. destruct Hr as [E|[E|[E|[E|[E|[]]]]]]; subst r; cbn; lia.
  - change (gx (a_grid hsA) / 2 + 1)%nat with 3%nat. change (gy (a_grid hsA)) with 3%nat.
    intros k l Hk Hl. destruct k as [|[|[|k]]]; [| | |lia];
    destruct l as [|[|[|l]]]; try lia; reflexivity.
Qed.

(** ** C30 Local Green's function is a slice of the global one *)
Theorem C30_slice : forall a s loc n sl, construct a = Ret s -> construct_on a loc n = Ret sl ->
  length (a_grid a) = 2%nat ->
  (fst loc + fst n <= gx (a_grid a) / 2 + 1)%nat -> (snd loc + snd n <= gy (a_grid a))%nat ->
  forall i j, (i < fst n)%nat -> (j < snd n)%nat ->
  s_gf sl i j = s_gf s (fst loc + i)%nat (snd loc + j)%nat
  /\ s_ss sl i j = s_ss s (fst loc + i)%nat (snd loc + j)%nat.
Proof.
  intros a s loc n sl H Hl L B0 B1 i j Hi Hj.
  unfold construct, construct_on in H, Hl.
  destruct (new a) as [h|] eqn:N; [|discriminate]. cbn [bind] in H, Hl.
  destruct (compute_greens_function h (0,0)%nat (fourier_pts (a_grid a))) as [gf|] eqn:G; [|discriminate].
  destruct (compute_greens_function h loc n) as [gfl|] eqn:GL; [|discriminate].
  cbn [bind] in H, Hl. injection H as H. injection Hl as Hl. subst s sl. cbn [s_gf s_ss].
  destruct (zero_thick_q0 _ _ N) as [_ [_ [_ [Eg _]]]].
  assert (D : dim h = 2%nat) by (unfold dim; rewrite Eg; exact L).
  assert (EX : nx h = gx (a_grid a)) by (unfold nx, gx; rewrite Eg; reflexivity).
  assert (EY : ny h = gy (a_grid a)) by (unfold ny, gy; rewrite Eg; reflexivity).
  assert (E : gfl i j = gf (fst loc + i)%nat (snd loc + j)%nat).
  { apply (greens_slice_2d h loc n gf gfl D); try assumption.
    - rewrite EX, EY. exact G.
    - rewrite EX. exact B0.
    - rewrite EY. exact B1. }
  split; [exact E|]. unfold compute_surface_stiffness. rewrite E. reflexivity.
Qed.
Print Assumptions C30_slice.

Theorem C30_index_error : forall a loc n, (exists h, new a = Ret h) ->
  length (a_grid a) = 2%nat ->
  (construct_on a loc n = Exc IndexError <->
     loc = (0, 0)%nat /\ (0 < fst n)%nat /\ (0 < snd n)%nat
     /\ a_thick a = None /\ a_q0 a = None /\ (fst n < 2 \/ snd n < 2)%nat)
  /\ (forall e, construct_on a loc n = Exc e -> e = IndexError).
Proof.
  intros a loc n [h Hh] L. unfold construct_on. rewrite Hh. cbn [bind].
  destruct (zero_thick_q0 _ _ Hh) as [Eq [Et [_ [Eg _]]]].
  assert (D : dim h = 2%nat) by (unfold dim; rewrite Eg; exact L).
  destruct (greens_index_2d h loc n D) as [A B]. rewrite Eq, Et in B.
  destruct (compute_greens_function h loc n) as [gf|e] eqn:G; cbn [bind is_exc] in *.
  - split; [|discriminate]. rewrite <- B. split; discriminate.
  - specialize (A e eq_refl). subst e. split.
    + rewrite <- B. split; reflexivity.
    + intros e E. congruence.
Qed.
Print Assumptions C30_index_error.

(* In one dimension each process overwrites entry 0 of its own slab. *)
Theorem C30_1d_slice_refuted : exists a s loc n sl,
  construct a = Ret s /\ construct_on a (loc, 0)%nat (n, 1)%nat = Ret sl
  /\ pos_args a /\ length (a_grid a) = 1%nat /\ (loc + n <= gx (a_grid a) / 2 + 1)%nat
  /\ (0 < n)%nat /\ s_gf sl 0%nat 0%nat <> s_gf s loc 0%nat.
Proof.
  destruct hsE_ok as [s Hs].
  destruct (construct_inv _ _ Hs) as [Hn _].
  destruct (zero_thick_q0 _ _ Hn) as [Eq [_ [_ [Eg [Ee _]]]]].
  assert (D : dim (s_hs s) = 1%nat) by (unfold dim; rewrite Eg; reflexivity).
  assert (G : exists sl, construct_on hsE (1, 0)%nat (2, 1)%nat = Ret sl).
  { unfold construct_on. rewrite Hn. cbn [bind]. unfold compute_greens_function.
    rewrite D. cbn [Nat.eqb fst]. unfold greens_1d. rewrite Eq. cbn [a_q0 hsE Nat.ltb Nat.leb bind Nat.eqb andb].
    eexists. reflexivity. }
  destruct G as [sl Hl]. exists hsE, s, 1%nat, 2%nat, sl.
  refine (conj Hs (conj Hl (conj hsE_pos (conj eq_refl _)))).
  split; [cbn; lia|]. split; [lia|].
  unfold construct_on in Hl. rewrite Hn in Hl. cbn [bind] in Hl.
  destruct (compute_greens_function (s_hs s) (1,0)%nat (2,1)%nat) as [gfl|] eqn:GL; [|discriminate].
  cbn [bind] in Hl. injection Hl as Hl. subst sl. cbn [s_gf].
  rewrite (greens_1d_local _ 7 _ _ _ D Eq ltac:(lra) GL).
  assert (N1 : nx (s_hs s) = 5%nat) by (unfold nx; rewrite Eg; reflexivity).
  rewrite (gf_val _ _ Hs hsE_pos); [|rewrite N1; lia|unfold ny; rewrite Eg; cbn; lia].
  pose proof (sizes_eq _ _ Hs) as [Sx [Sy _]].
  unfold zeroed, sigma, is_00. cbn [Nat.eqb andb]. unfold eff_thick. rewrite D. cbn [Nat.eqb].
  rewrite (qabs_1d (s_hs s) 1); [|rewrite N1; lia|rewrite Sx; cbn; lra].
  rewrite N1, Sx, Ee. unfold qcoord. cbn -[PI].
  pose proof PI_4. pose proof PI_RGT_0. intro E.
  assert (X : 1 / 7 * 7 = 1) by field. rewrite E in X.
  assert (Y : 1 / (PI * (2 / (1 - 1 / 4 * (1 / 4 * 1))) * (1 / 2) * 1) * 7 * PI = 105 / 16).
  { field. lra. }
  nra.
Qed.
Print Assumptions C30_1d_slice_refuted.
Example C30_nonvacuous : (exists s, construct hsA = Ret s)
  /\ (exists sl, construct_on hsA (1, 0)%nat (2, 3)%nat = Ret sl)
  /\ construct_on hsA (0, 0)%nat (1, 3)%nat = Exc IndexError.
Proof.
  assert (N : exists h, new hsA = Ret h).
  { destruct hsA_ok as [s Hs]. destruct (construct_inv _ _ Hs) as [Hn _]. eauto. }
  refine (conj hsA_ok (conj _ _)).
  - destruct (C30_index_error hsA (1,0)%nat (2,3)%nat N eq_refl) as [A B].
    destruct (construct_on hsA (1,0)%nat (2,3)%nat) as [sl|e]; [eauto|].
    rewrite (B e eq_refl) in A. destruct (proj1 A eq_refl) as [X _]. discriminate.
  - apply (C30_index_error hsA (0,0)%nat (1,3)%nat N eq_refl). cbn. repeat split; lia.
Qed.

(** ** C31 Finite thickness *)
Theorem C31_layer : forall a s t p q, construct a = Ret s -> pos_args a ->
  length (a_grid a) = 2%nat -> a_thick a = Some t ->
  let w := wavenumber (a_grid a) (cell_size (a_sizes a) 0) (cell_size (a_sizes a) 1) p q in
  on_grid (a_grid a) p q -> ~ (p = 0 /\ q = 0)%nat ->
  s_ss s p q = layer_stiffness (a_young a) (a_poisson a) t w
  /\ contact_modulus (a_young a) (a_poisson a) / 2 * w < s_ss s p q.
Proof.
  intros a s t p q H Hp L Ht w Hg Hz.
  rewrite (ss_thick a s p q t H Hp Hg Hz L Ht). fold w. split; [reflexivity|].
  destruct (construct_inv a s H) as [Hn _].
  pose proof (sizes_pos _ _ Hn Hp) as [Sx Sy].
  assert (W : 0 < w).
  { unfold w. rewrite <- (qabs_wavenumber a s p q H Hg).
    destruct Hg as [H1 H2]. rewrite <- (nx_gx a s H) in H1. rewrite <- (ny_gy a s H) in H2.
    pose proof PI_RGT_0. apply Rmult_lt_0_compat; [lra|].
    apply qabs_pos; try assumption. apply is_00_false. exact Hz. }
  destruct Hp as [_ [Hy [Hnu [Hth _]]]]. destruct (Hth t Ht) as [T1 T2].
  assert (C : 0 < contact_modulus (a_young a) (a_poisson a)).
  { unfold contact_modulus. apply Rdiv_lt_0_compat; [exact Hy|nra]. }
  assert (QT : 0 < w * t) by (apply Rmult_lt_0_compat; assumption).
  pose proof (thick_corr_gt_1 (a_poisson a) (w * t) T2 QT) as K.
  unfold thick_corr in K. unfold layer_stiffness.
  replace (5 - 12 * a_poisson a + 8 * a_poisson a ^ 2)
    with (4 * a_poisson a * (2 * a_poisson a - 3) + 5) by ring.
  set (X := _ / _) in K |- *.
  assert (0 < contact_modulus (a_young a) (a_poisson a) * w) by (apply Rmult_lt_0_compat; assumption).
  nra.
Qed.
Print Assumptions C31_layer.

Theorem C31_thick_limit : forall young nu kappa, nu < 1 / 2 -> 0 < kappa ->
  is_lim (fun t => layer_stiffness young nu t kappa) p_infty
         (contact_modulus young nu / 2 * kappa).
Proof.
  intros young nu kappa Hn Hk.
  replace (contact_modulus young nu / 2 * kappa)
    with (contact_modulus young nu * kappa / 2 * 1) by field.
  apply (is_lim_scal_l (fun t => _) (contact_modulus young nu * kappa / 2) p_infty 1).
  apply (is_lim_ext (fun t => thick_corr nu (kappa * t + 0))).
  - intros t. unfold thick_corr. rewrite Rplus_0_r. f_equal. ring.
  - apply (is_lim_comp_lin (thick_corr nu)); [|lra].
    replace (Rbar_plus (Rbar_mult kappa p_infty) 0) with p_infty.
    + apply thick_corr_lim_infty. exact Hn.
    + cbn. destruct (Rle_dec 0 kappa) as [r|r]; [|lra].
      destruct (Rle_lt_or_eq_dec 0 kappa r); [reflexivity|lra].
Qed.
Print Assumptions C31_thick_limit.

Theorem C31_zero_wavevector : forall a s t, construct a = Ret s -> pos_args a ->
  length (a_grid a) = 2%nat -> a_thick a = Some t ->
  s_ss s 0%nat 0%nat = uniaxial_stiffness (a_young a) (a_poisson a) t
  /\ is_lim (fun kappa => layer_stiffness (a_young a) (a_poisson a) t kappa) 0
            (s_ss s 0%nat 0%nat).
Proof.
  intros a s t H Hp L Ht. rewrite (ss_thick_0 a s t H Hp L Ht). split; [reflexivity|].
  destruct Hp as [_ [Hy [Hnu [Hth _]]]]. destruct (Hth t Ht) as [T1 T2].
  pose proof PI_RGT_0 as Hpi.
  pose proof (thick_q0_limit (a_young a) (a_poisson a) t T1 ltac:(lra)) as LM.
  replace (uniaxial_stiffness (a_young a) (a_poisson a) t)
    with (thick_q0 (a_young a) t (a_poisson a)).
  2:{ unfold thick_q0, uniaxial_stiffness. field. repeat split; lra. }
  eapply (is_lim_ext (fun k => (fun q => PI * (a_young a / (1 - a_poisson a ^ 2)) * q *
     thick_corr (a_poisson a) (q * (2 * PI * t))) (/ (2 * PI) * k + 0))).
  - intros k. cbv beta. unfold layer_stiffness, thick_corr, contact_modulus.
    replace ((/ (2 * PI) * k + 0) * (2 * PI * t)) with (k * t) by (field; lra).
    replace (PI * (a_young a / (1 - a_poisson a ^ 2)) * (/ (2 * PI) * k + 0))
      with (a_young a / (1 - a_poisson a ^ 2) * k / 2).
    2:{ field. split; first [lra|nra]. }
    f_equal. f_equal. ring.
  - apply (is_lim_comp_lin (fun q => PI * (a_young a / (1 - a_poisson a ^ 2)) * q *
     thick_corr (a_poisson a) (q * (2 * PI * t)))).
    + replace (Rbar_plus (Rbar_mult (/ (2 * PI)) 0) 0) with (Finite 0); [exact LM|].
      cbn. f_equal. ring.
    + apply Rinv_neq_0_compat. lra.
Qed.
Print Assumptions C31_zero_wavevector.
(* One-dimensional half-spaces silently ignore [thickness]. *)
Theorem C31_1d_thickness_refuted : exists a s t p, construct a = Ret s /\ pos_args a
  /\ a_thick a = Some t /\ on_grid (a_grid a) p 0 /\ p <> 0%nat
  /\ s_ss s p 0%nat = contact_modulus (a_young a) (a_poisson a) / 2 *
       wavenumber (a_grid a) (cell_size (a_sizes a) 0) (cell_size (a_sizes a) 1) p 0.
Proof.
  set (a := mkArgs [5]%nat 2 [2] None (Some 3) (1/4) None).
  assert (X : exists s, construct a = Ret s).
  { apply (construct_1d_ok a 5); hs_side. }
  destruct X as [s Hs]. exists a, s, 3, 1%nat.
  assert (P : pos_args a) by (unfold a; hs_pos).
  refine (conj Hs (conj P (conj eq_refl (conj _ (conj _ _))))); [split; cbn; lia|lia|].
  apply ss_infinite; try assumption; [split; cbn; lia|unfold zero_wave; lia|right; reflexivity].
Qed.
Print Assumptions C31_1d_thickness_refuted.
Example C31_nonvacuous : (exists s, construct hsD = Ret s) /\ pos_args hsD
  /\ a_thick hsD = Some 3 /\ on_grid (a_grid hsD) 1 2.
Proof. refine (conj hsD_ok (conj hsD_pos (conj eq_refl _))). split; cbn; lia. Qed.

(** ** C32 Constructor validates its arguments *)
Theorem C32_error_iff : forall a,
  new a = Exc SubstrateError <->
  (length (a_grid a) <> 1%nat /\ length (a_grid a) <> 2%nat)
  \/ ((exists q, a_q0 a = Some q) /\ (exists t, a_thick a = Some t))
  \/ ((length (a_grid a) = 1%nat \/ length (a_grid a) = 2%nat)
      /\ (a_q0 a = None \/ a_thick a = None)
      /\ a_sizes a <> [] /\ (forall n, In n (a_grid a) -> n <> 0%nat)
      /\ 1 - a_poisson a ^ 2 <> 0
      /\ exists g, a_engine a = Some g /\ g <> a_grid a).
Proof. exact new_error_iff. Qed.
Print Assumptions C32_error_iff.
Theorem C32_accepts_iff : forall a,
  (exists h, new a = Ret h) <->
  (length (a_grid a) = 1%nat \/ length (a_grid a) = 2%nat)
  /\ (a_q0 a = None \/ a_thick a = None)
  /\ a_sizes a <> [] /\ (forall n, In n (a_grid a) -> n <> 0%nat)
  /\ 1 - a_poisson a ^ 2 <> 0
  /\ (forall g, a_engine a = Some g -> g = a_grid a).
Proof. exact new_ok_iff. Qed.
Print Assumptions C32_accepts_iff.
Theorem C32_sizes : forall a h, new a = Ret h ->
  length (h_sizes h) = length (a_grid a) /\ length (h_steps h) = length (a_grid a)
  /\ forall i, (i < length (a_grid a))%nat ->
     nth i (h_sizes h) 0 = cell_size (a_sizes a) i
     /\ nth i (h_steps h) 0 * INR (nth i (a_grid a) 0%nat) = cell_size (a_sizes a) i.
Proof. exact new_sizes. Qed.
Print Assumptions C32_sizes.
(* Documented value stiffness_q0 = 0 is never accepted in one dimension. *)
Theorem C32_1d_stiffness_q0_zero_refuted : forall a,
  length (a_grid a) = 1%nat -> a_q0 a = Some 0 -> exists e, construct a = Exc e.
Proof. exact construct_q0_zero_1d. Qed.
Print Assumptions C32_1d_stiffness_q0_zero_refuted.
Example C32_nonvacuous :
  new (mkArgs [2; 2; 2]%nat 1 [1] None None 0 None) = Exc SubstrateError
  /\ new (mkArgs [2; 2]%nat 1 [1] (Some 1) (Some 1) 0 None) = Exc SubstrateError
  /\ new (mkArgs [2; 2]%nat 1 [1] None None 0 (Some [2; 3]%nat)) = Exc SubstrateError
  /\ (exists h, new hsD = Ret h).
Proof.
  refine (conj _ (conj _ (conj _ _))).
  - reflexivity.
  - reflexivity.
  - apply C32_error_iff. right. right. cbn.
    refine (conj (or_intror eq_refl) (conj (or_introl eq_refl) (conj _ (conj _ (conj _ _))))).
    + discriminate.
    + intros n [N|[N|[]]]; lia.
    + lra.
    + exists [2; 3]%nat. split; [reflexivity|discriminate].
  - destruct hsD_ok as [s Hs]. destruct (construct_inv _ _ Hs) as [Hn _]. eauto.
Qed.
