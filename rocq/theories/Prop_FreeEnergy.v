(** * C99 Forces and energy of the free and semi-periodic half-spaces on their computational grid *)
From Coq Require Import Reals ZArith Lia Lra List Arith Bool.
From Coquelicot Require Import Complex.
From Verif Require Import Py FFT_Base HalfSpace_Model HalfSpace_Spec HalfSpace_Proofs
  HalfSpace_Results HalfSpace_Results2 Free_Model Free_Spec Free_Proofs Free_Results
  Systems_Model Systems_Spec Systems_Proofs Free_Energy Prop_Free.
From Coq Require Import List.
Import ListNotations.
Local Open Scope R_scope.

(** A constructed object and the methods it offers. *)
Definition padded_space (sb : substrate) (s : fsub) : Prop :=
  (exists a, free_construct a = Ret s /\ sizes_ok a /\ sb = free s)
  \/ (exists a, semi_construct a = Ret s /\ sizes_ok (sa_base a) /\ sb = semi s).

Lemma area_ne : forall b, List.length (fa_grid b) = 2%nat -> (0 < gx (fa_grid b))%nat -> (0 < gy (fa_grid b))%nat -> sizes_ok b ->
  point_area (fa_grid b) (fa_sizes b) <> 0.
Proof.
  intros b L P1 P2 [Z0 Z1]. unfold point_area. rewrite L. cbn [Nat.eqb]. unfold Rdiv.
  apply Rmult_integral_contrapositive_currified; [apply Rmult_integral_contrapositive_currified; assumption|].
  apply Rinv_neq_0_compat, Rmult_integral_contrapositive_currified; apply not_0_INR; lia.
Qed.

Lemma padded_facts : forall sb s, padded_space sb s ->
  List.length (f_dom s) = 2%nat /\ (0 < domx s)%nat /\ (0 < domy s)%nat
  /\ f_gf s = fft2 (domx s) (domy s) (f_real s) /\ f_ss s = compute_surface_stiffness_c (f_gf s) /\ even_on s
  /\ sb_sub sb = f_dom s /\ area_per_pt (f_hs s) <> 0
  /\ (forall u, sb_force sb (mkArr (f_dom s) u) = base_force s (mkArr (f_dom s) u))
  /\ (forall f, sb_disp sb (mkArr (f_dom s) f) = base_disp s (mkArr (f_dom s) f))
  /\ exists frc, sb_eval sb = f_evaluate frc s /\ sb_force sb = frc.
Proof.
  intros sb s [(a & H & SO & ->)|(a & H & SO & ->)].
  - destruct (free_direct a s H SO) as [G1 [L1 L2] [P1 P2] [D1 D2] GF SS _]. pose proof (free_even a s H SO) as EV.
    destruct (free_inv a s H) as (L & G & _). destruct G as [_ _ _ _ _ _ G6 _]. destruct (G6 L) as (_ & _ & _ & _ & AR).
    split; [exact L2|]. split; [lia|]. split; [lia|]. do 3 (split; [assumption|]). split; [reflexivity|].
    split; [rewrite AR; apply area_ne; assumption|]. split; [reflexivity|].
    split; [intros f; cbn [free sb_disp]; unfold free_disp; cbn [a_shape]; rewrite shape_eqb_refl; reflexivity|].
    exists (base_force s). split; reflexivity.
  - destruct (semi_direct a s H SO) as [G1 [L1 L2] [P1 P2] [D1 D2] GF SS _]. pose proof (semi_even a s H SO) as EV.
    destruct (semi_inv a s H) as (L & G & _). destruct G as [_ _ _ _ _ _ G6 _]. destruct (G6 L) as (_ & _ & _ & _ & AR).
    split; [exact L2|]. split; [lia|]. split; [lia|]. do 3 (split; [assumption|]). split; [reflexivity|].
    split; [rewrite AR; apply area_ne; assumption|].
    split; [intros u; cbn [semi sb_force]; unfold semi_force; cbn [a_shape]; rewrite shape_eqb_refl; reflexivity|].
    split; [intros f; cbn [semi sb_disp]; unfold free_disp; cbn [a_shape]; rewrite shape_eqb_refl; reflexivity|].
    exists (semi_force s). split; reflexivity.
Qed.

(** ** C99 Energy and forces, asked for together or separately *)
Theorem C99_energy : forall sb s u, padded_space sb s ->
  exists E f, sb_force sb (mkArr (sb_sub sb) u) = Ret f /\ a_shape f = sb_sub sb
  /\ E = - inner (sb_sub sb) u (a_val f) / 2
  /\ sb_eval sb (mkArr (sb_sub sb) u) true true = Ret (Some E, Some f)
  /\ sb_eval sb (mkArr (sb_sub sb) u) true false = Ret (Some E, None)
  /\ sb_eval sb (mkArr (sb_sub sb) u) false true = Ret (None, Some f).
Proof.
  intros sb s u H. destruct (padded_facts sb s H) as (LD & P1 & P2 & GF & SS & EV & SB & AR & FO & _ & frc & EE & EF).
  rewrite SB, EE. pose proof (FO u) as EQ. rewrite EF in EQ |- *.
  destruct (base_force_multiplier s P1 P2 GF SS EV) as (_ & _ & _ & _ & E). destruct (E (mkArr (f_dom s) u) eq_refl) as (f & E1 & _).
  destruct (pad_evaluate s LD P1 P2 GF SS EV frc u f EQ E1) as (SH & A & B & D).
  exists (- (1 / 2) * inner (f_dom s) u (a_val f)), f. rewrite EQ. split; [exact E1|]. split; [exact SH|]. split; [lra|].
  split; [exact A|]. split; [exact B|exact D].
Qed.
Print Assumptions C99_energy.

(** ** C99 Reciprocity on the whole computational grid *)
Theorem C99_reciprocity : forall sb s u v, padded_space sb s ->
  (exists f g, sb_force sb (mkArr (sb_sub sb) u) = Ret f /\ sb_force sb (mkArr (sb_sub sb) v) = Ret g
     /\ inner (sb_sub sb) v (a_val f) = inner (sb_sub sb) u (a_val g))
  /\ exists f g, sb_disp sb (mkArr (sb_sub sb) u) = Ret f /\ sb_disp sb (mkArr (sb_sub sb) v) = Ret g
     /\ inner (sb_sub sb) v (a_val f) = inner (sb_sub sb) u (a_val g).
Proof.
  intros sb s u v H. destruct (padded_facts sb s H) as (LD & P1 & P2 & GF & SS & EV & SB & AR & FO & DI & _). rewrite SB.
  pose proof (multiplier_symop _ _ _ _ (base_force_multiplier s P1 P2 GF SS EV)) as S1.
  pose proof (multiplier_symop _ _ _ _ (base_disp_multiplier s P1 P2 GF EV)) as S2.
  assert (X : forall ev, symop (f_dom s) ev (val_of ev (f_dom s)) -> exists f g, ev (mkArr (f_dom s) u) = Ret f /\ ev (mkArr (f_dom s) v) = Ret g
     /\ inner (f_dom s) v (a_val f) = inner (f_dom s) u (a_val g)).
  { intros ev S. destruct (so_ret _ _ _ S u) as (f & E1 & V1). destruct (so_ret _ _ _ S v) as (g & E2 & V2).
    exists (mkArr (f_dom s) f), (mkArr (f_dom s) g). split; [exact E1|]. split; [exact E2|]. cbn [a_val].
    rewrite (inner_ext _ v v _ _ (fun x y _ => eq_refl) V1), (inner_ext _ u u _ _ (fun x y _ => eq_refl) V2). apply (so_sym _ _ _ S). }
  rewrite !FO, !DI. split; [exact (X _ S1)|exact (X _ S2)].
Qed.
Print Assumptions C99_reciprocity.

(** ** C99 The forces are minus the gradient of the energy *)
Theorem C99_gradient : forall sb s u v, padded_space sb s ->
  exists Eu Ev Euv f, sb_eval sb (mkArr (sb_sub sb) u) true true = Ret (Some Eu, Some f)
  /\ sb_eval sb (mkArr (sb_sub sb) v) true false = Ret (Some Ev, None)
  /\ sb_eval sb (mkArr (sb_sub sb) (fun x y => u x y + v x y)) true false = Ret (Some Euv, None)
  /\ Euv = Eu - inner (sb_sub sb) v (a_val f) + Ev.
Proof.
  intros sb s u v H. destruct (C99_energy sb s u H) as (Eu & f & F1 & _ & E1 & A1 & _).
  destruct (C99_energy sb s v H) as (Ev & g & F2 & _ & E2 & _ & B2 & _).
  destruct (C99_energy sb s (fun x y => u x y + v x y) H) as (Euv & k & F3 & _ & E3 & _ & B3 & _).
  exists Eu, Ev, Euv, f. split; [exact A1|]. split; [exact B2|]. split; [exact B3|].
  destruct (C99_reciprocity sb s u v H) as [(f' & g' & F1' & F2' & RE) _]. rewrite F1 in F1'. injection F1' as <-. rewrite F2 in F2'. injection F2' as <-.
  destruct (padded_facts sb s H) as (LD & P1 & P2 & GF & SS & EV & SB & AR & FO & DI & _). rewrite SB in *.
  assert (LI : same_on (f_dom s) (a_val k) (fun x y => a_val f x y + a_val g x y)).
  { destruct (multiplier_linear _ _ _ _ (base_force_multiplier s P1 P2 GF SS EV) 1 1 u v) as (f' & g' & k' & X1 & X2 & X3 & V).
    rewrite <- FO, F1 in X1. injection X1 as <-. rewrite <- FO, F2 in X2. injection X2 as <-.
    replace (fun x y => 1 * u x y + 1 * v x y) with (fun x y => u x y + v x y) in X3
      by (apply FunctionalExtensionality.functional_extensionality; intros x; apply FunctionalExtensionality.functional_extensionality; intros y; ring).
    rewrite <- FO, F3 in X3. injection X3 as <-. intros x y G. rewrite (V x y G). ring. }
  rewrite E1, E2, E3. rewrite (inner_ext _ _ _ _ _ (fun x y _ => eq_refl) LI).
  assert (BI : forall a b c d : field, inner (f_dom s) (fun x y => a x y + b x y) (fun x y => c x y + d x y)
    = inner (f_dom s) a c + inner (f_dom s) a d + inner (f_dom s) b c + inner (f_dom s) b d).
  { intros. unfold inner, total. rewrite <- !Rsum2_plus. apply Rsum2_ext. intros. ring. }
  rewrite BI, <- RE. lra.
Qed.
Print Assumptions C99_gradient.

(** ** C99 Forces undo displacements, if the influence function has no zero in Fourier space *)
Theorem C99_inverse : forall sb s f, padded_space sb s ->
  (forall k l, on_grid (sb_sub sb) k l -> fft2 (domx s) (domy s) (f_real s) k l <> RtoC 0) ->
  (exists u f' E, sb_disp sb (mkArr (sb_sub sb) f) = Ret u /\ sb_force sb u = Ret f' /\ same_on (sb_sub sb) (a_val f') f
     /\ sb_eval sb u true false = Ret (Some E, None) /\ E = - inner (sb_sub sb) (a_val u) f / 2)
  /\ (exists u f', sb_force sb (mkArr (sb_sub sb) f) = Ret u /\ sb_disp sb u = Ret f' /\ same_on (sb_sub sb) (a_val f') f).
Proof.
  intros sb s f H NZ. pose proof (padded_facts sb s H) as (LD & P1 & P2 & GF & SS & EV & SB & AR & FO & DI & _).
  destruct (base_inverse s P1 P2 LD GF SS) with (f := f) as [(u & f' & A1 & A2 & A3) (v & g' & B1 & B2 & B3)].
  - intros k l K L. rewrite GF. apply NZ. rewrite SB. split; assumption.
  - exact AR.
  - rewrite SB in *.
    assert (SU : a_shape u = f_dom s).
    { destruct (base_disp_multiplier s P1 P2 GF EV) as (_ & _ & _ & _ & E). destruct (E (mkArr (f_dom s) f) eq_refl) as (u' & E1 & S1 & _).
      rewrite A1 in E1. injection E1 as <-. exact S1. }
    assert (SV : a_shape v = f_dom s).
    { destruct (base_force_multiplier s P1 P2 GF SS EV) as (_ & _ & _ & _ & E). destruct (E (mkArr (f_dom s) f) eq_refl) as (u' & E1 & S1 & _).
      rewrite B1 in E1. injection E1 as <-. exact S1. }
    destruct u as [su u], v as [sv v]. cbn [a_shape] in SU, SV. subst su sv. split.
    + destruct (C99_energy sb s u H) as (E & f1 & F1 & _ & EE & _ & EV1 & _). rewrite SB in *. exists (mkArr (f_dom s) u), f', E.
      rewrite DI, FO. split; [exact A1|]. split; [exact A2|]. split; [exact A3|]. split; [exact EV1|].
      rewrite FO, A2 in F1. injection F1 as <-. rewrite EE. cbn [a_val]. rewrite (inner_ext _ u u _ _ (fun x y _ => eq_refl) A3). reflexivity.
    + exists (mkArr (f_dom s) v), g'. rewrite DI, FO. split; [exact B1|]. split; [exact B2|exact B3].
Qed.
Print Assumptions C99_inverse.

(** ** C99 The semi-periodic class pads smaller displacement arrays with zeros, the free class refuses them *)
Theorem C99_padding : forall a s n m u p, semi_construct a = Ret s -> sizes_ok (sa_base a) ->
  (n <= gx (sb_sub (semi s)))%nat -> (m <= gy (sb_sub (semi s)))%nat ->
  (forall x y, (x < n)%nat -> (y < m)%nat -> p x y = u x y) ->
  (forall x y, on_grid (sb_sub (semi s)) x y -> (n <= x \/ m <= y)%nat -> p x y = 0) ->
  exists f g, sb_force (semi s) (mkArr [n; m] u) = Ret f /\ sb_force (semi s) (mkArr (sb_sub (semi s)) p) = Ret g
  /\ a_shape f = sb_sub (semi s) /\ same_on (sb_sub (semi s)) (a_val f) (a_val g).
Proof.
  intros a s n m u p H SO LN LM IN OUT.
  assert (PS : padded_space (semi s) s) by (right; exists a; split; [exact H|]; split; [exact SO|reflexivity]).
  destruct (padded_facts _ s PS) as (LD & P1 & P2 & GF & SS & EV & SB & AR & FO & DI & _). rewrite SB in *.
  destruct (base_force_multiplier s P1 P2 GF SS EV) as (_ & _ & _ & _ & E).
  assert (X : exists v, sb_force (semi s) (mkArr [n; m] u) = base_force s (mkArr (f_dom s) v) /\ same_on (f_dom s) v p).
  { cbn [semi sb_force]. unfold semi_force. cbn [a_shape a_val]. destruct (shape_eqb [n; m] (f_dom s)) eqn:EQ.
    - exists u. apply shape_eqb_spec in EQ. split; [rewrite EQ; reflexivity|]. intros x y [Hx Hy]. symmetry. rewrite <- EQ in Hx, Hy. apply IN; [exact Hx|exact Hy].
    - change (domx s) with (gx (f_dom s)). change (domy s) with (gy (f_dom s)).
      rewrite (proj2 (Nat.leb_le _ _) LN), (proj2 (Nat.leb_le _ _) LM). cbn [andb]. eexists. split; [reflexivity|].
      intros x y G. unfold zero_pad. cbn [nth]. destruct (Nat.ltb_spec x n), (Nat.ltb_spec y m); cbn [andb]; symmetry; auto. }
  destruct X as (v & -> & SV). rewrite FO.
  destruct (E (mkArr (f_dom s) v) eq_refl) as (f & F1 & S1 & V1). destruct (E (mkArr (f_dom s) p) eq_refl) as (g & F2 & S2 & V2).
  exists f, g. split; [exact F1|]. split; [exact F2|]. split; [exact S1|]. intros x y G. rewrite (V1 x y G), (V2 x y G). f_equal.
  apply mult_ext. intros x' y' Hx Hy. apply SV. split; assumption.
Qed.
Print Assumptions C99_padding.

Theorem C99_shapes :
  (forall a s u, free_construct a = Ret s -> a_shape u <> sb_sub (free s) ->
     sb_force (free s) u = Exc SubstrateError /\ forall pot, sb_eval (free s) u pot true = Exc SubstrateError)
  /\ (forall a s n m u, semi_construct a = Ret s -> sizes_ok (sa_base a) -> [n; m] <> sb_sub (semi s) ->
     sb_eval (semi s) (mkArr [n; m] u) true true = Exc ValueErr
     /\ ((gx (sb_sub (semi s)) < n \/ gy (sb_sub (semi s)) < m)%nat -> sb_force (semi s) (mkArr [n; m] u) = Exc ValueErr)).
Proof.
  split.
  - intros a s u H NE.
    assert (X : base_force s u = Exc SubstrateError).
    { unfold base_force. destruct (shape_eqb (a_shape u) (f_dom s)) eqn:EQ; [|reflexivity]. apply shape_eqb_spec in EQ. contradiction. }
    split; [exact X|]. intros pot. cbn [free sb_eval]. unfold f_evaluate. rewrite X. reflexivity.
  - intros a s n m u H SO NE.
    assert (PS : padded_space (semi s) s) by (right; exists a; split; [exact H|]; split; [exact SO|reflexivity]).
    destruct (padded_facts _ s PS) as (LD & P1 & P2 & GF & SS & EV & SB & AR & FO & DI & _). rewrite SB in *.
    destruct (base_force_multiplier s P1 P2 GF SS EV) as (_ & _ & _ & _ & E).
    assert (NS : shape_eqb [n; m] (f_dom s) = false) by (destruct (shape_eqb [n; m] (f_dom s)) eqn:EQ; [apply shape_eqb_spec in EQ; contradiction|reflexivity]).
    assert (DD : f_dom s = [domx s; domy s]) by (unfold domx, domy; destruct (f_dom s) as [|? [|? [|? ?]]]; try discriminate LD; reflexivity).
    assert (BIG : (domx s < n \/ domy s < m)%nat -> semi_force s (mkArr [n; m] u) = Exc ValueErr).
    { intros B. unfold semi_force. cbn [a_shape]. rewrite NS. destruct (Nat.leb_spec n (domx s)), (Nat.leb_spec m (domy s)); try reflexivity. lia. }
    split; [|exact BIG]. cbn [semi sb_eval]. unfold f_evaluate.
    destruct (Nat.leb n (domx s) && Nat.leb m (domy s))%bool eqn:FI.
    + unfold semi_force. cbn [a_shape a_val]. rewrite NS, FI.
      destruct (E (mkArr (f_dom s) (zero_pad [n; m] u)) eq_refl) as (f & F1 & S1 & _). rewrite F1. cbn [bind].
      unfold ravel_dot. cbn [amap a_shape]. rewrite S1, DD. cbn [size fold_right].
      apply andb_prop in FI. destruct FI as [A B]. apply Nat.leb_le in A, B.
      destruct (Nat.eqb_spec (n * (m * 1)) (domx s * (domy s * 1))) as [Z|Z]; [|reflexivity].
      exfalso. apply NE. rewrite DD.
      assert (n = domx s) by nia. assert (m = domy s) by nia. congruence.
    + rewrite BIG; [reflexivity|]. apply andb_false_iff in FI. destruct FI as [A|A]; apply Nat.leb_gt in A; lia.
Qed.
Print Assumptions C99_shapes.

(** ** C99 Without forces, [evaluate] repeats axes of length 1 instead of padding *)
Theorem C99_repeats : forall sb s n m u, padded_space sb s ->
  (forall w, (n = gx (sb_sub sb) \/ n = 1)%nat -> (m = gy (sb_sub sb) \/ m = 1)%nat ->
     (forall x y, on_grid (sb_sub sb) x y -> w x y = u (if Nat.eqb n 1 then 0%nat else x) (if Nat.eqb m 1 then 0%nat else y)) ->
     sb_eval sb (mkArr [n; m] u) true false = sb_eval sb (mkArr (sb_sub sb) w) true false)
  /\ (~ ((n = gx (sb_sub sb) \/ n = 1)%nat /\ (m = gy (sb_sub sb) \/ m = 1)%nat) -> sb_eval sb (mkArr [n; m] u) true false = Exc ValueErr).
Proof.
  intros sb s n m u H. destruct (padded_facts sb s H) as (LD & P1 & P2 & GF & SS & EV & SB & AR & FO & _ & frc & EE & EF).
  rewrite SB, EE. assert (DD : f_dom s = [domx s; domy s]) by (unfold domx, domy; destruct (f_dom s) as [|? [|? [|? ?]]]; try discriminate LD; reflexivity).
  change (gx (f_dom s)) with (domx s). change (gy (f_dom s)) with (domy s).
  assert (FI : forall k K, fits k K = true <-> (k = K \/ k = 1)%nat).
  { intros k K. unfold fits. rewrite orb_true_iff, !Nat.eqb_eq. reflexivity. }
  split.
  - intros w HN HM W. unfold f_evaluate. destruct (copy_same (f_dom s) w) as (w' & EW & SW); [rewrite DD; discriminate|lia|]. rewrite EW. cbn [bind].
    assert (EC : copy_into (f_dom s) (mkArr [n; m] u) = Ret (fun x y => u (repeated n x) (repeated m y))).
    { rewrite DD. unfold copy_into. cbn [a_shape a_val]. rewrite (proj2 (FI _ _) HN), (proj2 (FI _ _) HM). reflexivity. }
    rewrite EC. cbn [bind].
    assert (SAME : same_on (f_dom s) (fun x y => u (repeated n x) (repeated m y)) w').
    { intros x y G. rewrite (SW x y G). symmetry. apply (W x y G). }
    pose proof (fft2_same _ _ _ SAME) as FE. change (gx (f_dom s)) with (domx s) in FE. change (gy (f_dom s)) with (domy s) in FE. rewrite FE. reflexivity.
  - intros NF. unfold f_evaluate. rewrite DD. unfold copy_into. cbn [a_shape].
    destruct (fits n (domx s)) eqn:F1; [|reflexivity]. destruct (fits m (domy s)) eqn:F2; [|reflexivity].
    exfalso. apply NF. split; apply FI; assumption.
Qed.
Print Assumptions C99_repeats.

(** The same for the periodic half-space, which is asked for arrays of its own shape only by the callers. *)
Theorem C99_periodic_repeats : forall a s N M n m u, construct a = Ret s -> a_grid a = [N; M] ->
  (forall w, (n = N \/ n = 1)%nat -> (m = M \/ m = 1)%nat ->
     (forall x y, on_grid (a_grid a) x y -> w x y = u (if Nat.eqb n 1 then 0%nat else x) (if Nat.eqb m 1 then 0%nat else y)) ->
     evaluate s (mkArr [n; m] u) true false = evaluate s (mkArr (a_grid a) w) true false)
  /\ (~ ((n = N \/ n = 1)%nat /\ (m = M \/ m = 1)%nat) -> evaluate s (mkArr [n; m] u) true false = Exc ValueErr)
  /\ ([n; m] <> a_grid a -> forall pot, evaluate s (mkArr [n; m] u) pot true = Exc SubstrateError).
Proof.
  intros a s N M n m u H DD. pose proof (hs_grid a s H) as HG.
  assert (FI : forall k K, fits k K = true <-> (k = K \/ k = 1)%nat).
  { intros k K. unfold fits. rewrite orb_true_iff, !Nat.eqb_eq. reflexivity. }
  split; [|split].
  - intros w HN HM W. unfold evaluate. rewrite HG. destruct (copy_same (a_grid a) w) as (w' & EW & SW); [rewrite DD; discriminate|rewrite DD; cbn; lia|]. rewrite EW. cbn [bind].
    assert (EC : copy_into (a_grid a) (mkArr [n; m] u) = Ret (fun x y => u (repeated n x) (repeated m y))).
    { rewrite DD. unfold copy_into. cbn [a_shape a_val]. rewrite (proj2 (FI _ _) HN), (proj2 (FI _ _) HM). reflexivity. }
    rewrite EC. cbn [bind].
    assert (SAME : same_on (a_grid a) (fun x y => u (repeated n x) (repeated m y)) w').
    { intros x y G. rewrite (SW x y G). symmetry. apply (W x y G). }
    rewrite (nx_gx a s H), (ny_gy a s H), (fft2_same _ _ _ SAME). reflexivity.
  - intros NF. unfold evaluate. rewrite HG, DD. unfold copy_into. cbn [a_shape].
    destruct (fits n N) eqn:F1; [|reflexivity]. destruct (fits m M) eqn:F2; [|reflexivity].
    exfalso. apply NF. split; apply FI; assumption.
  - intros NE pot. unfold evaluate, evaluate_force. cbn [a_shape]. rewrite HG.
    destruct (shape_eqb [n; m] (a_grid a)) eqn:EQ; [apply shape_eqb_spec in EQ; contradiction|reflexivity].
Qed.
Print Assumptions C99_periodic_repeats.

(** Numbers, rows and, on lines, single rows: entry [w x y] of the grid for an array [u] of fewer or more axes. *)
Definition spread (g sh : list nat) (u w : nat -> nat -> R) : Prop :=
  match g, sh with
  | _, [] => forall x y, on_grid g x y -> w x y = u 0%nat 0%nat
  | [N], [n] => (n = N \/ n = 1)%nat /\ forall x y, on_grid g x y -> w x y = u (if Nat.eqb n 1 then 0%nat else x) y
  | [N], [m; n] => m = 1%nat /\ (n = N \/ n = 1)%nat /\ forall x y, on_grid g x y -> w x y = u 0%nat (if Nat.eqb n 1 then 0%nat else x)
  | [_; N], [n] => (n = N \/ n = 1)%nat /\ forall x y, on_grid g x y -> w x y = u (if Nat.eqb n 1 then 0%nat else y) 0%nat
  | _, _ => False
  end.
Lemma spread_copy : forall g sh u w, g <> [] -> (List.length g <= 2)%nat -> spread g sh u w ->
  exists v v', copy_into g (mkArr sh u) = Ret v /\ copy_into g (mkArr g w) = Ret v' /\ same_on g v v'.
Proof.
  intros g sh u w NE LG SP. destruct (copy_same g w NE LG) as (v' & EW & SW).
  assert (FI : forall k K, (k = K \/ k = 1)%nat -> fits k K = true).
  { intros k K Q. unfold fits. apply orb_true_iff. rewrite !Nat.eqb_eq. exact Q. }
  assert (CV : exists v, copy_into g (mkArr sh u) = Ret v /\ same_on g v w).
  { destruct g as [|N [|M [|? ?]]]; [congruence| | |cbn in LG; lia]; destruct sh as [|n [|k [|? ?]]]; cbn [spread] in SP; try contradiction;
      unfold copy_into; cbn [a_shape a_val].
    - eexists. split; [reflexivity|]. intros x y G. symmetry. apply SP. exact G.
    - destruct SP as [Q SP]. rewrite (FI _ _ Q). eexists. split; [reflexivity|]. intros x y G. symmetry. apply SP. exact G.
    - destruct SP as (-> & Q & SP). rewrite (FI _ _ Q). cbn [Nat.eqb andb]. eexists. split; [reflexivity|]. intros x y G. symmetry. apply SP. exact G.
    - eexists. split; [reflexivity|]. intros x y G. symmetry. apply SP. exact G.
    - destruct SP as [Q SP]. rewrite (FI _ _ Q). eexists. split; [reflexivity|]. intros x y G. symmetry. apply SP. exact G. }
  destruct CV as (v & EC & SC). exists v, v'. split; [exact EC|]. split; [exact EW|]. intros x y G. rewrite (SC x y G). symmetry. apply SW. exact G.
Qed.
Theorem C99_spread : forall sb s a s' u w sh,
  (padded_space sb s -> spread (sb_sub sb) sh u w -> sb_eval sb (mkArr sh u) true false = sb_eval sb (mkArr (sb_sub sb) w) true false)
  /\ (construct a = Ret s' -> spread (a_grid a) sh u w -> evaluate s' (mkArr sh u) true false = evaluate s' (mkArr (a_grid a) w) true false).
Proof.
  intros sb s a s' u w sh. split.
  - intros H SP. destruct (padded_facts sb s H) as (LD & P1 & P2 & GF & SS & EV & SB & AR & FO & _ & frc & EE & EF).
    rewrite SB in *. rewrite EE. destruct (spread_copy (f_dom s) sh u w) as (v & v' & E1 & E2 & SM); [intros Z; rewrite Z in LD; discriminate|lia|exact SP|].
    unfold f_evaluate. rewrite E1, E2. cbn [bind].
    pose proof (fft2_same _ _ _ SM) as FE. change (gx (f_dom s)) with (domx s) in FE. change (gy (f_dom s)) with (domy s) in FE. rewrite FE. reflexivity.
  - intros H SP. destruct (construct_inv a s' H) as [Hn _]. apply new_inv in Hn. destruct Hn as (HD & _).
    destruct (spread_copy (a_grid a) sh u w) as (v & v' & E1 & E2 & SM); [intros Z; rewrite Z in HD; cbn in HD; lia|lia|exact SP|].
    unfold evaluate. rewrite (hs_grid a s' H), E1, E2. cbn [bind]. rewrite (nx_gx a s' H), (ny_gy a s' H), (fft2_same _ _ _ SM). reflexivity.
Qed.
Print Assumptions C99_spread.
Example C99_spread_nonvacuous : spread [3; 2]%nat [] (fun _ _ => 5) (fun _ _ => 5)
  /\ spread [3; 2]%nat [2]%nat (fun i _ => INR i) (fun _ y => INR y) /\ spread [4]%nat [1; 4]%nat (fun _ j => INR j) (fun x _ => INR x).
Proof.
  split; [intros x y _; reflexivity|]. split; [split; [left; reflexivity|intros x y _; reflexivity]|].
  split; [reflexivity|]. split; [left; reflexivity|]. intros x y _. reflexivity.
Qed.

(** ** C47 The gap of a displacement array with an axis of length 1 *)
Theorem C47_gap_repeats : forall sb sf n m k l u off, sb_topo sb = [n; m] -> sf_grid sf = [n; m] -> (0 < n)%nat -> (0 < m)%nat ->
  (k = n \/ k = 1)%nat -> (l = m \/ l = 1)%nat ->
  exists d, compute_gap sb sf (mkArr [k; l] u) off = Ret d /\ a_shape d = [n; m]
  /\ forall x y, (x < n)%nat -> (y < m)%nat ->
     a_val d x y = u (if Nat.eqb k 1 then 0%nat else x) (if Nat.eqb l 1 then 0%nat else y) - (sf_base sf x y + sf_plastic sf x y) - off.
Proof.
  intros sb sf n m k l u off T G N M K L. unfold compute_gap. rewrite T. unfold head_slice. cbn [a_shape a_val List.length Nat.ltb Nat.leb bind].
  assert (EK : Nat.min n k = k) by lia. assert (EL : Nat.min m l = l) by lia.
  cbn [combine map fst snd skipn app]. rewrite EK, EL. unfold binop, heights, amap. rewrite G. cbn [a_shape a_val].
  assert (B : forall i j, (0 < j)%nat -> (i = j \/ i = 1)%nat -> bext i j = Some j).
  { intros i j P [->| ->]; unfold bext; [rewrite Nat.eqb_refl; reflexivity|]. destruct (Nat.eqb_spec 1 j); [subst; reflexivity|reflexivity]. }
  rewrite (B k n N K), (B l m M L). eexists. split; [reflexivity|]. split; [reflexivity|]. intros x y X Y. cbn [a_val].
  rewrite (bidx_lt n x X), (bidx_lt m y Y). unfold bidx. ring.
Qed.
Print Assumptions C47_gap_repeats.

(** ** Cases *)
(** A free and a semi-periodic half-space of 3 x 2 points; a single point, whose
    influence function has no zero. *)
Example C99_nonvacuous :
  (exists s, padded_space (free s) s /\ sb_sub (free s) = [6; 4]%nat)
  /\ (exists s, semi_construct shA = Ret s /\ sizes_ok (sa_base shA) /\ padded_space (semi s) s /\ sb_sub (semi s) = [3; 3]%nat)
  /\ exists s, padded_space (semi s) s /\ sb_sub (semi s) = [1; 1]%nat
     /\ forall k l, on_grid (sb_sub (semi s)) k l -> fft2 (domx s) (domy s) (f_real s) k l <> RtoC 0.
Proof.
  assert (SO : sizes_ok fhA) by (unfold sizes_ok, cell_size; cbn; lra).
  split; [|split].
  - destruct fh_ok as [[s H] _]. exists s. split; [left; exists fhA; split; [exact H|]; split; [exact SO|reflexivity]|].
    destruct (free_inv _ _ H) as (_ & _ & D & _). cbn [free sb_sub]. rewrite D. reflexivity.
  - destruct sh_ok as [[s H] _]. exists s. split; [exact H|]. split; [exact SO|]. split; [right; exists shA; split; [exact H|]; split; [exact SO|reflexivity]|].
    destruct (semi_inv _ _ H) as (_ & _ & D & _). cbn [semi sb_sub]. rewrite D. reflexivity.
  - set (a := mkSargs (mkFargs [1; 1]%nat 2 [1; 1] None true) (false, false) 0).
    assert (EX : exists s, semi_construct a = Ret s).
    { apply (semi_ok _ 1 1); [reflexivity|lia|lia|discriminate|]. intros g E. inversion E. }
    destruct EX as [s H]. exists s. assert (SA : sizes_ok (sa_base a)) by (unfold sizes_ok, cell_size; cbn; lra).
    assert (PS : padded_space (semi s) s) by (right; exists a; split; [exact H|]; split; [exact SA|reflexivity]).
    split; [exact PS|]. destruct (semi_inv _ _ H) as (_ & _ & D & _).
    split; [cbn [semi sb_sub]; rewrite D; reflexivity|].
    destruct (semi_direct a s H SA) as [_ _ _ _ _ _ RE]. specialize (RE 0%nat 0%nat 0%nat 0%nat).
    assert (DX : domx s = 1%nat) by (unfold domx; rewrite D; reflexivity). assert (DY : domy s = 1%nat) by (unfold domy; rewrite D; reflexivity).
    intros k l [K L]. change (gx (sb_sub (semi s))) with (domx s) in K. change (gy (sb_sub (semi s))) with (domy s) in L. rewrite DX, DY in *.
    replace k with 0%nat by lia. replace l with 0%nat by lia. rewrite fft2_00. cbn [gx gy fa_grid sa_base a nth] in RE.
    specialize (RE ltac:(cbn; lia) ltac:(cbn; lia) ltac:(cbn; lia) ltac:(cbn; lia)).
    intros Z. apply RtoC_inj in Z. unfold Rsum2, Rsum in Z. cbn in Z. cbn in RE. rewrite RE in Z.
    assert (0 < image_influence [1%nat; 1%nat] 2 [1; 1] (false, false) 0 0 0).
    { apply image_influence_pos; unfold spacing, cell_size; cbn; lra. }
    cbn in Z, H0. lra.
Qed.
