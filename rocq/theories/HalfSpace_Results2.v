(** * Linearity, symmetry, energy of the periodic half-space *)

From Coq Require Import Reals ZArith Lia Lra List Arith Bool.
From Coquelicot Require Import Complex Coquelicot.
From Verif Require Import Py FFT_Base HalfSpace_Model HalfSpace_Spec
  HalfSpace_Proofs HalfSpace_Results Thickness.
Import ListNotations.
Local Open Scope R_scope.

(** Both evaluators are Fourier multipliers with a real even symbol. *)
Definition multiplier (g : list nat) (ev : arr -> res arr) (c : R) (G : spectrum) : Prop :=
  (0 < gx g)%nat /\ (0 < gy g)%nat /\ Herm (gx g) (gy g) G
  /\ (forall k l, Cconj (G k l) = G k l)
  /\ forall f, a_shape f = g -> exists u, ev f = Ret u /\ a_shape u = g
     /\ forall x y, on_grid g x y -> a_val u x y = c * mult (gx g) (gy g) G (a_val f) x y.

Lemma disp_multiplier : forall a s, construct a = Ret s ->
  multiplier (a_grid a) (evaluate_disp s) (- / area_per_pt (s_hs s)) (GF s).
Proof.
  intros a s H. destruct (gx_pos a s H).
  unfold multiplier. pose proof (GF_Herm a s H) as HH.
  rewrite (nx_gx a s H), (ny_gy a s H) in HH.
  repeat (split; [assumption|]). split.
  { intros. unfold GF. apply Cconj_RtoC. }
  intros f E. rewrite <- (hs_grid a s H) in E.
  destruct (evaluate_disp_eq a s f H E) as [u [Eu [Su Vu]]].
  exists u. split; [assumption|]. split; [rewrite Su; apply hs_grid; assumption|].
  intros x y [Hx Hy]. rewrite Vu.
  - rewrite (nx_gx a s H), (ny_gy a s H). reflexivity.
  - rewrite (nx_gx a s H). assumption.
  - rewrite (ny_gy a s H). assumption.
Qed.

Lemma force_multiplier : forall a s, construct a = Ret s ->
  multiplier (a_grid a) (evaluate_force s) (- area_per_pt (s_hs s)) (SS s).
Proof.
  intros a s H. destruct (gx_pos a s H).
  unfold multiplier. pose proof (SS_Herm a s H) as HH.
  rewrite (nx_gx a s H), (ny_gy a s H) in HH.
  repeat (split; [assumption|]). split.
  { intros. unfold SS. apply Cconj_RtoC. }
  intros f E. rewrite <- (hs_grid a s H) in E.
  destruct (evaluate_force_eq a s f H E) as [u [Eu [Su Vu]]].
  exists u. split; [assumption|]. split; [rewrite Su; apply hs_grid; assumption|].
  intros x y _. rewrite Vu.
  rewrite (nx_gx a s H), (ny_gy a s H). reflexivity.
Qed.

Section Multiplier.
  Context (g : list nat) (ev : arr -> res arr) (c : R) (G : spectrum).
  Hypothesis M : multiplier g ev c G.

  Lemma multiplier_linear : forall (al be : R) (f f' : field),
    exists u u' v, ev (mkArr g f) = Ret u /\ ev (mkArr g f') = Ret u'
    /\ ev (mkArr g (fun x y => al * f x y + be * f' x y)) = Ret v
    /\ same_on g (a_val v) (fun x y => al * a_val u x y + be * a_val u' x y).
  Proof.
    destruct M as [P1 [P2 [HG [_ E]]]]. intros.
    destruct (E (mkArr g f) eq_refl) as [u [Eu [_ Vu]]].
    destruct (E (mkArr g f') eq_refl) as [u' [Eu' [_ Vu']]].
    destruct (E (mkArr g (fun x y => al * f x y + be * f' x y)) eq_refl) as [v [Ev [_ Vv]]].
    exists u, u', v. repeat (split; [assumption|]).
    intros x y Hg. rewrite Vu, Vu', Vv by assumption. cbn [a_val].
    destruct Hg. rewrite mult_lin by assumption. ring.
  Qed.

  Lemma multiplier_translate : forall (f : field) m n,
    exists u v, ev (mkArr g f) = Ret u
    /\ ev (mkArr g (translate g m n f)) = Ret v
    /\ same_on g (a_val v) (translate g m n (a_val u)).
  Proof.
    destruct M as [P1 [P2 [HG [_ E]]]]. intros.
    destruct (E (mkArr g f) eq_refl) as [u [Eu [_ Vu]]].
    destruct (E (mkArr g (translate g m n f)) eq_refl) as [v [Ev [_ Vv]]].
    exists u, v. repeat (split; [assumption|]).
    intros x y Hg. rewrite Vv by assumption. unfold translate at 2.
    rewrite Vu by (split; apply Nat.mod_upper_bound; lia). cbn [a_val].
    destruct Hg. f_equal.
    change (translate g m n f) with (shift (gx g) (gy g) m n f).
    rewrite mult_shift by assumption. reflexivity.
  Qed.

  Lemma multiplier_selfadjoint : forall (f f' : field),
    exists u u', ev (mkArr g f) = Ret u /\ ev (mkArr g f') = Ret u'
    /\ inner g f (a_val u') = inner g f' (a_val u).
  Proof.
    destruct M as [P1 [P2 [HG [HR E]]]]. intros.
    destruct (E (mkArr g f) eq_refl) as [u [Eu [_ Vu]]].
    destruct (E (mkArr g f') eq_refl) as [u' [Eu' [_ Vu']]].
    exists u, u'. repeat (split; [assumption|]).
    unfold inner, total.
    transitivity (c * dot (gx g) (gy g) f (mult (gx g) (gy g) G f')).
    - unfold dot. rewrite <- Rsum2_scal. apply Rsum2_ext. intros.
      rewrite Vu' by (split; assumption). cbn [a_val]. ring.
    - rewrite mult_adjoint by (try assumption; intros; apply HR).
      unfold dot. rewrite <- Rsum2_scal. apply Rsum2_ext. intros.
      rewrite Vu by (split; assumption). cbn [a_val]. ring.
  Qed.

  Lemma multiplier_total : forall (f : field),
    exists u, ev (mkArr g f) = Ret u
    /\ total g (a_val u) = c * Re (G 0%nat 0%nat) * total g f.
  Proof.
    destruct M as [P1 [P2 [HG [HR E]]]]. intros.
    destruct (E (mkArr g f) eq_refl) as [u [Eu [_ Vu]]].
    exists u. split; [assumption|]. unfold total.
    rewrite (Rsum2_ext _ _ (a_val u) (fun x y => c * mult (gx g) (gy g) G f x y)).
    - rewrite Rsum2_scal.
      rewrite (mult_sum (gx g) (gy g) P1 P2 G f HG). ring.
    - intros. apply Vu. split; assumption.
  Qed.

  Lemma multiplier_wave : forall p q phi, (p < gx g)%nat -> (q < gy g)%nat ->
    exists u, ev (mkArr g (plane_wave g p q phi)) = Ret u
    /\ same_on g (a_val u) (fun x y => c * Re (G p q) * plane_wave g p q phi x y).
  Proof.
    destruct M as [P1 [P2 [HG [HR E]]]]. intros p q phi Hp Hq.
    destruct (E (mkArr g (plane_wave g p q phi)) eq_refl) as [u [Eu [_ Vu]]].
    exists u. split; [assumption|]. intros x y Hg.
    rewrite Vu by assumption. cbn [a_val]. destruct Hg.
    change (plane_wave g p q phi) with (wave (gx g) (gy g) p q phi).
    rewrite mult_wave by (try assumption; apply HR). ring.
  Qed.
End Multiplier.

(** ** Energies *)

Lemma evaluate_energy : forall a s u, construct a = Ret s ->
  exists f, evaluate s (mkArr (a_grid a) u) true true
            = Ret (Some (0.5 * inner (a_grid a) u (fun x y => - a_val f x y)), Some f)
  /\ evaluate_force s (mkArr (a_grid a) u) = Ret f
  /\ forall x y, on_grid (a_grid a) x y -> a_val f x y
       = - area_per_pt (s_hs s) * mult (gx (a_grid a)) (gy (a_grid a)) (SS s) u x y.
Proof.
  intros a s u H. destruct (force_multiplier a s H) as [_ [_ [_ [_ E]]]].
  destruct (E (mkArr (a_grid a) u) eq_refl) as [f [Ef [_ Vf]]].
  exists f. unfold evaluate. rewrite Ef. cbn [bind].
  split; [|split; [reflexivity|assumption]].
  unfold evaluate_elastic_energy, inner, total.
  rewrite (nx_gx a s H), (ny_gy a s H). reflexivity.
Qed.

Definition energy_of (a : args) (s : sub) (u : field) : R :=
  / 2 * area_per_pt (s_hs s) *
  dot (gx (a_grid a)) (gy (a_grid a)) u (mult (gx (a_grid a)) (gy (a_grid a)) (SS s) u).

Lemma evaluate_energy_of : forall a s u, construct a = Ret s ->
  exists f, evaluate s (mkArr (a_grid a) u) true true
            = Ret (Some (energy_of a s u), Some f)
  /\ evaluate_force s (mkArr (a_grid a) u) = Ret f
  /\ forall x y, on_grid (a_grid a) x y -> a_val f x y
       = - area_per_pt (s_hs s) * mult (gx (a_grid a)) (gy (a_grid a)) (SS s) u x y.
Proof.
  intros a s u H. destruct (evaluate_energy a s u H) as [f [E1 [E2 V]]].
  exists f. split; [|split; assumption]. rewrite E1.
  assert (X : 0.5 * inner (a_grid a) u (fun x y : nat => - a_val f x y) = energy_of a s u).
  { unfold energy_of, inner, total, dot.
    rewrite (Rsum2_ext _ _ _ (fun x y => area_per_pt (s_hs s) *
      (u x y * mult (gx (a_grid a)) (gy (a_grid a)) (SS s) u x y))).
    - rewrite Rsum2_scal. lra.
    - intros. rewrite V by (split; assumption). ring. }
  rewrite X. reflexivity.
Qed.

Lemma energy_spectral : forall a s u, construct a = Ret s ->
  npts (gx (a_grid a)) (gy (a_grid a)) * energy_of a s u
  = / 2 * area_per_pt (s_hs s) *
    Rsum2 (gx (a_grid a)) (gy (a_grid a)) (fun k l =>
      s_ss s k l * (Cmod (fft2 (gx (a_grid a)) (gy (a_grid a)) u k l)) ^ 2).
Proof.
  intros a s u H. unfold energy_of. destruct (gx_pos a s H).
  pose proof (SS_Herm a s H) as HH.
  rewrite (nx_gx a s H), (ny_gy a s H) in HH.
  rewrite (Rsum2_ext _ _ _ (fun k l => Re (SS s k l) *
     (Cmod (fft2 (gx (a_grid a)) (gy (a_grid a)) u k l)) ^ 2)) by reflexivity.
  rewrite <- (dot_mult (gx (a_grid a)) (gy (a_grid a))) by assumption. ring.
Qed.

Lemma ss_nonneg : forall a s, construct a = Ret s -> pos_args a ->
  forall k l, on_grid (a_grid a) k l -> 0 <= s_ss s k l.
Proof.
  intros a s H Hp k l [Hk Hl].
  rewrite <- (nx_gx a s H) in Hk. rewrite <- (ny_gy a s H) in Hl.
  rewrite (ss_val a s H Hp) by assumption.
  destruct (zeroed (s_hs s) k l); [lra|].
  left. apply (sigma_pos a s H Hp); assumption.
Qed.

Lemma energy_nonneg : forall a s u, construct a = Ret s -> pos_args a ->
  0 <= energy_of a s u.
Proof.
  intros a s u H Hp. destruct (gx_pos a s H) as [P1 P2].
  pose proof (npts_pos _ _ P1 P2) as N.
  destruct (construct_inv a s H) as [Hn _].
  pose proof (area_pos _ _ Hn Hp) as A.
  assert (0 <= npts (gx (a_grid a)) (gy (a_grid a)) * energy_of a s u).
  { rewrite energy_spectral by assumption.
    apply Rmult_le_pos; [lra|]. apply Rsum2_nonneg. intros.
    apply Rmult_le_pos; [|apply pow2_ge_0].
    apply (ss_nonneg a s H Hp). split; assumption. }
  apply (Rmult_le_reg_l (npts (gx (a_grid a)) (gy (a_grid a)))); [assumption|lra].
Qed.

Lemma energy_zero : forall a s u, construct a = Ret s -> pos_args a ->
  energy_of a s u = 0 ->
  (forall x y, on_grid (a_grid a) x y -> u x y = mean (a_grid a) u)
  /\ (a_q0 a <> Some 0 -> mean (a_grid a) u = 0).
Proof.
  intros a s u H Hp E0. destruct (gx_pos a s H) as [P1 P2].
  pose proof (npts_pos _ _ P1 P2) as N.
  destruct (construct_inv a s H) as [Hn _].
  pose proof (area_pos _ _ Hn Hp) as A.
  pose proof (energy_spectral a s u H) as ES. rewrite E0, Rmult_0_r in ES.
  assert (S0 : Rsum2 (gx (a_grid a)) (gy (a_grid a)) (fun k l =>
      s_ss s k l * (Cmod (fft2 (gx (a_grid a)) (gy (a_grid a)) u k l)) ^ 2) = 0).
  { apply (Rmult_eq_reg_l (/ 2 * area_per_pt (s_hs s))); lra. }
  assert (Z : forall k l, on_grid (a_grid a) k l ->
     zeroed (s_hs s) k l = false ->
     fft2 (gx (a_grid a)) (gy (a_grid a)) u k l = RtoC 0).
  { intros k l [Hk Hl] Zf.
    pose proof (Rsum2_zero_terms (gx (a_grid a)) (gy (a_grid a)) _
      (fun i j Hi Hj => Rmult_le_pos _ _ (ss_nonneg a s H Hp i j (conj Hi Hj))
         (pow2_ge_0 (Cmod (fft2 (gx (a_grid a)) (gy (a_grid a)) u i j)))) S0 k l Hk Hl) as T.
    cbv beta in T.
    rewrite (ss_val a s H Hp), Zf in T by (rewrite ?(nx_gx a s H), ?(ny_gy a s H); assumption).
    assert (0 < sigma (s_hs s) k l).
    { apply (sigma_pos a s H Hp); rewrite ?(nx_gx a s H), ?(ny_gy a s H); assumption. }
    apply Cmod_eq_0.
    apply Rmult_integral in T. destruct T as [T|T]; [lra|].
    simpl in T. rewrite Rmult_1_r in T. apply Rmult_integral in T. tauto. }
  assert (M : a_q0 a <> Some 0 -> mean (a_grid a) u = 0).
  { intros Q. assert (Zf : zeroed (s_hs s) 0 0 = false).
    { unfold zeroed. destruct (zero_thick_q0 _ _ Hn) as [Eq _]. rewrite Eq.
      destruct (a_q0 a) as [q|]; [|reflexivity].
      destruct (Req_bool_spec q 0); [congruence|reflexivity]. }
    specialize (Z 0%nat 0%nat (conj P1 P2) Zf). rewrite fft2_00 in Z.
    apply RtoC_inj in Z. unfold mean, total. rewrite Z. unfold Rdiv. ring. }
  split; [|assumption].
  intros x y [Hx Hy].
  assert (U : u x y - Rsum2 (gx (a_grid a)) (gy (a_grid a)) u
                 / npts (gx (a_grid a)) (gy (a_grid a)) = 0).
  { rewrite <- (mult_zero_mean _ _ P1 P2 u x y Hx Hy).
    revert x y Hx Hy.
    apply (fft2_inj _ _ P1 P2 (mult _ _ (fun k l => if is_00 k l then RtoC 0 else RtoC 1) u)
             (fun _ _ => 0)).
    intros k l Hk Hl. rewrite fft2_mult; try assumption.
    - rewrite (fft2_ext _ _ (fun _ _ => 0) (fun x y => 0 * u x y)) by (intros; ring).
      rewrite fft2_scal. destruct (is_00 k l) eqn:I; [reflexivity|].
      rewrite Z; [ring|split; assumption|unfold zeroed; rewrite I; reflexivity].
    - intros i j Hi Hj. rewrite is_00_neg by assumption.
      destruct (is_00 i j); rewrite Cconj_RtoC; reflexivity. }
  unfold mean, total. fold (npts (gx (a_grid a)) (gy (a_grid a))). lra.
Qed.

(** Bilinear expansion. *)
Lemma energy_expand : forall a s u v, construct a = Ret s ->
  energy_of a s (fun x y => u x y + v x y)
  = energy_of a s u
    + area_per_pt (s_hs s) * dot (gx (a_grid a)) (gy (a_grid a))
        (mult (gx (a_grid a)) (gy (a_grid a)) (SS s) u) v
    + energy_of a s v.
Proof.
  intros a s u v H. destruct (gx_pos a s H) as [P1 P2].
  pose proof (SS_Herm a s H) as HH.
  rewrite (nx_gx a s H), (ny_gy a s H) in HH.
  set (M := mult (gx (a_grid a)) (gy (a_grid a)) (SS s)).
  assert (L : forall x y, (x < gx (a_grid a))%nat -> (y < gy (a_grid a))%nat ->
     M (fun x y => u x y + v x y) x y = M u x y + M v x y).
  { intros x y Hx Hy. unfold M.
    rewrite (mult_ext _ _ _ _ (fun x y => 1 * u x y + 1 * v x y)) by (intros; ring).
    rewrite mult_lin by assumption. ring. }
  assert (X : dot (gx (a_grid a)) (gy (a_grid a)) v (M u)
              = dot (gx (a_grid a)) (gy (a_grid a)) u (M v)).
  { apply mult_adjoint; try assumption. intros. unfold SS. apply Cconj_RtoC. }
  unfold energy_of. fold M.
  assert (Y : dot (gx (a_grid a)) (gy (a_grid a)) (fun x y => u x y + v x y)
                (M (fun x y => u x y + v x y))
     = dot (gx (a_grid a)) (gy (a_grid a)) u (M u)
       + (dot (gx (a_grid a)) (gy (a_grid a)) u (M v)
          + dot (gx (a_grid a)) (gy (a_grid a)) v (M u))
       + dot (gx (a_grid a)) (gy (a_grid a)) v (M v)).
  { unfold dot. rewrite <- !Rsum2_plus. apply Rsum2_ext. intros. rewrite L by assumption. ring. }
  rewrite Y, <- X, (dot_comm _ _ (M u) v). field.
Qed.

(** ** Scalar product in Fourier space *)

Definition rect := ((nat * nat) * (nat * nat))%type.

Definition in_rect (r : rect) (k l : nat) : bool :=
  andb (andb (Nat.leb (fst (fst r)) k) (Nat.ltb k (fst (fst r) + fst (snd r))))
       (andb (Nat.leb (snd (fst r)) l) (Nat.ltb l (snd (fst r) + snd (snd r)))).

Lemma Rsum_window : forall N lo n f, (lo + n <= N)%nat ->
  Rsum n (fun i => f (lo + i)%nat)
  = Rsum N (fun k => if andb (Nat.leb lo k) (Nat.ltb k (lo + n)) then f k else 0).
Proof.
  intros N lo n f H.
  replace N with (lo + (n + (N - lo - n)))%nat by lia. rewrite !Rsum_split.
  rewrite (Rsum_ext lo _ (fun _ => 0)).
  2:{ intros i Hi. destruct (Nat.leb_spec lo i); [lia|reflexivity]. }
  rewrite (Rsum_ext (N - lo - n) _ (fun _ => 0)).
  2:{ intros i Hi. destruct (Nat.ltb_spec (lo + (n + i)) (lo + n)); [lia|].
      rewrite andb_false_r. reflexivity. }
  rewrite !Rsum_0.
  rewrite (Rsum_ext n (fun i => if (Nat.leb lo (lo + i) && Nat.ltb (lo + i) (lo + n))%bool
                            then f (lo + i)%nat else 0) (fun i => f (lo + i)%nat)).
  - ring.
  - intros i Hi. destruct (Nat.leb_spec lo (lo + i)); [|lia].
    destruct (Nat.ltb_spec (lo + i) (lo + n)); [reflexivity|lia].
Qed.

Lemma local_scalar_product_eq : forall s loc n A B,
  let Nx := nx (s_hs s) in let Ny := ny (s_hs s) in
  (0 < Nx)%nat ->
  (fst n * snd n <> 0)%nat -> (fst loc + fst n <= Nx / 2 + 1)%nat ->
  local_scalar_product s loc n A B
  = Rsum (fst n) (fun i => wt Nx (fst loc + i) *
       Rsum (snd n) (fun j => Re (Cconj (A i j) * B i j)%C)) / npts Nx Ny.
Proof.
  intros s [loc0 loc1] [n0 n1] A B Nx Ny HN Hn Hb. cbn [fst snd] in *.
  unfold local_scalar_product. cbn [fst snd]. fold Nx Ny.
  destruct (Nat.eqb_spec (n0 * n1) 0) as [Z|_]; [contradiction|].
  assert (Hn0 : (0 < n0)%nat) by nia.
  unfold npts. f_equal.
  set (r := fun i => Rsum n1 (fun j => Re (Cconj (A i j) * B i j)%C)).
  assert (Er : forall i, Re (Csum n1 (fun j => (Cconj (A i j) * B i j)%C)) = r i).
  { intros. unfold r. rewrite Csum_Re. reflexivity. }
  rewrite !Er.
  rewrite (Rsum_ext (n0 - 2) (fun i => Re (Csum n1 (fun j => (Cconj (A (1 + i)%nat j) * B (1 + i)%nat j)%C)))
     (fun i => r (1 + i)%nat)) by (intros; apply Er).
  change (Rsum n0 (fun i => wt Nx (loc0 + i) * Rsum n1 (fun j => Re (Cconj (A i j) * B i j)%C)))
    with (Rsum n0 (fun i => wt Nx (loc0 + i) * r i)).
  pose proof (Nat.div_mod Nx 2 ltac:(lia)) as D.
  pose proof (Nat.mod_upper_bound Nx 2 ltac:(lia)) as Db.
  assert (W2 : forall k, (0 < k)%nat -> (2 * k <> Nx)%nat -> wt Nx k = 2).
  { intros k K1 K2. unfold wt. destruct (Nat.eqb_spec k 0); [lia|].
    destruct (Nat.eqb_spec (2 * k) Nx); [contradiction|reflexivity]. }
  assert (W1 : forall k, (2 * k = Nx)%nat -> wt Nx k = 1).
  { intros k K. unfold wt. rewrite K, Nat.eqb_refl, orb_true_r. reflexivity. }
  assert (W0 : wt Nx 0 = 1) by reflexivity.
  destruct (Nat.eq_dec n0 1) as [N1|N1].
  - subst n0. cbn [Nat.sub Rsum]. change (Nat.ltb 2 1) with false.
    change (Nat.ltb 1 1) with false. rewrite !Nat.add_0_r.
    replace (loc0 + 1 - 1)%nat with loc0 by lia.
    destruct (Nat.eqb_spec loc0 0) as [L|L]; cbn [andb Nat.eqb].
    + subst. rewrite W0. ring.
    + destruct (Nat.eqb_spec (Nx mod 2) 1) as [O|O].
      * rewrite (W2 loc0) by lia. ring.
      * destruct (Nat.eqb_spec loc0 (Nx / 2)) as [Q|Q].
        -- rewrite (W1 loc0) by lia. ring.
        -- rewrite (W2 loc0) by lia. ring.
  - assert (Esum : Rsum n0 (fun i => wt Nx (loc0 + i) * r i)
       = wt Nx loc0 * r 0%nat
         + (Rsum (n0 - 2) (fun i => wt Nx (loc0 + (1 + i)) * r (1 + i)%nat)
            + wt Nx (loc0 + (n0 - 1)) * r (n0 - 1)%nat)).
    { replace n0 with (1 + ((n0 - 2) + 1))%nat at 1 by lia.
      rewrite Rsum_split, Rsum_split. cbn [Rsum]. rewrite !Nat.add_0_r.
      replace (1 + (n0 - 2))%nat with (n0 - 1)%nat by lia. ring. }
    rewrite Esum.
    destruct (Nat.ltb_spec 1 n0); [|lia].
    destruct (Nat.eqb_spec n0 1); [lia|]. rewrite andb_false_r.
    assert (Wmid : Rsum (n0 - 2) (fun i => wt Nx (loc0 + (1 + i)) * r (1 + i)%nat)
                   = 2 * Rsum (n0 - 2) (fun i => r (1 + i)%nat)).
    { rewrite <- Rsum_scal. apply Rsum_ext. intros i Hi. rewrite W2 by lia. reflexivity. }
    rewrite Wmid.
    assert (Wmid2 : (if Nat.ltb 2 n0 then 2 else 0) * Rsum (n0 - 2) (fun i => r (1 + i)%nat)
                    = 2 * Rsum (n0 - 2) (fun i => r (1 + i)%nat)).
    { destruct (Nat.ltb_spec 2 n0); [reflexivity|].
      replace (n0 - 2)%nat with 0%nat by lia. simpl. ring. }
    rewrite Wmid2.
    assert (Wfirst : wt Nx loc0 = if Nat.eqb loc0 0 then 1 else 2).
    { destruct (Nat.eqb_spec loc0 0); [subst; apply W0|apply W2; lia]. }
    rewrite Wfirst.
    assert (Wlast : wt Nx (loc0 + (n0 - 1))
      = if Nat.eqb (Nx mod 2) 1 then 2 else
          if Nat.eqb (loc0 + n0 - 1) (Nx / 2) then 1 else 2).
    { destruct (Nat.eqb_spec (Nx mod 2) 1); [apply W2; lia|].
      destruct (Nat.eqb_spec (loc0 + n0 - 1) (Nx / 2)); [apply W1; lia|apply W2; lia]. }
    rewrite Wlast. ring.
Qed.

(** A list of subdomains is a decomposition of the half-complex array if
    every subdomain lies inside it and every entry belongs to exactly one. *)
Definition decomposition (H Ny : nat) (ranks : list rect) : Prop :=
  (forall r, In r ranks -> (fst (fst r) + fst (snd r) <= H)%nat
                        /\ (snd (fst r) + snd (snd r) <= Ny)%nat)
  /\ (forall k l, (k < H)%nat -> (l < Ny)%nat ->
       length (filter (fun r => in_rect r k l) ranks) = 1%nat).

Lemma rect_sum : forall H Ny r f,
  (fst (fst r) + fst (snd r) <= H)%nat -> (snd (fst r) + snd (snd r) <= Ny)%nat ->
  Rsum2 (fst (snd r)) (snd (snd r)) (fun i j => f (fst (fst r) + i)%nat (snd (fst r) + j)%nat)
  = Rsum2 H Ny (fun k l => if in_rect r k l then f k l else 0).
Proof.
  intros H Ny [[lo0 lo1] [n0 n1]] f H0 H1. cbn [fst snd] in *. unfold Rsum2, in_rect.
  cbn [fst snd].
  rewrite (Rsum_window H lo0 n0
     (fun k => Rsum n1 (fun j => f k (lo1 + j)%nat))) by assumption.
  apply Rsum_ext. intros k Hk.
  destruct (andb (Nat.leb lo0 k) (Nat.ltb k (lo0 + n0))); cbn [andb].
  - apply (Rsum_window Ny lo1 n1 (fun l => f k l)). assumption.
  - symmetry. apply Rsum_0.
Qed.

Lemma ranks_sum : forall H Ny (ranks : list rect) f,
  (forall r, In r ranks -> (fst (fst r) + fst (snd r) <= H)%nat
                        /\ (snd (fst r) + snd (snd r) <= Ny)%nat) ->
  fold_right Rplus 0 (map (fun r : rect => Rsum2 (fst (snd r)) (snd (snd r))
      (fun i j => f (fst (fst r) + i)%nat (snd (fst r) + j)%nat)) ranks)
  = Rsum2 H Ny (fun k l => INR (length (filter (fun r => in_rect r k l) ranks)) * f k l).
Proof.
  intros H Ny ranks f. induction ranks as [|r ranks IH]; intros Hb.
  - simpl. rewrite (Rsum2_ext _ _ _ (fun _ _ => 0)) by (intros; ring).
    rewrite Rsum2_const. ring.
  - cbn [map fold_right].
    destruct (Hb r (or_introl eq_refl)) as [B1 B2].
    rewrite (rect_sum H Ny r f B1 B2), IH by (intros; apply Hb; right; assumption).
    rewrite <- Rsum2_plus. apply Rsum2_ext. intros k l Hk Hl. cbn [filter].
    destruct (in_rect r k l).
    + cbn [length]. rewrite S_INR. ring.
    + ring.
Qed.

Lemma scalar_product_decomposed : forall s ranks A B,
  let Nx := nx (s_hs s) in let Ny := ny (s_hs s) in
  (0 < Nx)%nat ->
  decomposition (Nx / 2 + 1) Ny ranks ->
  scalar_product_k s ranks A B
  = Rsum (Nx / 2 + 1) (fun k => wt Nx k *
       Rsum Ny (fun l => Re (Cconj (A k l) * B k l)%C)) / npts Nx Ny.
Proof.
  intros s ranks A B Nx Ny HN [Hb Hc]. unfold scalar_product_k.
  set (F := fun k l => wt Nx k * Re (Cconj (A k l) * B k l)%C / npts Nx Ny).
  transitivity (fold_right Rplus 0 (map (fun r : rect => Rsum2 (fst (snd r)) (snd (snd r))
      (fun i j => F (fst (fst r) + i)%nat (snd (fst r) + j)%nat)) ranks)).
  { f_equal. apply map_ext_in. intros r Hr. destruct (Hb r Hr) as [B1 B2].
    destruct (Nat.eq_dec (fst (snd r) * snd (snd r)) 0) as [Z|Z].
    - unfold local_scalar_product. rewrite Z. cbn [Nat.eqb].
      apply Nat.mul_eq_0 in Z. unfold Rsum2. destruct Z as [Z|Z]; rewrite Z; simpl.
      + reflexivity.
      + symmetry. apply Rsum_0.
    - rewrite local_scalar_product_eq by assumption. fold Nx Ny.
      unfold Rsum2, F, Rdiv. rewrite <- Rsum_scal_r. apply Rsum_ext. intros i Hi.
      rewrite Rsum_scal_r, Rsum_scal. reflexivity. }
  rewrite (ranks_sum _ _ ranks F Hb).
  rewrite (Rsum2_ext _ _ _ F).
  - unfold Rsum2, F, Rdiv. rewrite <- Rsum_scal_r. apply Rsum_ext. intros i Hi.
    rewrite Rsum_scal_r, Rsum_scal. reflexivity.
  - intros k l Hk Hl. rewrite (Hc k l Hk Hl). simpl. ring.
Qed.

(** The energy of the displacements copied into the buffer. *)
Lemma copy_same : forall g u, g <> [] -> (List.length g <= 2)%nat ->
  exists v, copy_into g (mkArr g u) = Ret v /\ same_on g v u.
Proof.
  assert (F : forall n, fits n n = true) by (intros n; unfold fits; rewrite Nat.eqb_refl; reflexivity).
  assert (T : forall n i, (i < n)%nat -> repeated n i = i) by (intros n i L; unfold repeated; destruct (Nat.eqb_spec n 1); lia).
  intros [|n [|m [|k g]]] u Z L; [congruence| | |cbn in L; lia]; unfold copy_into; cbn [a_shape a_val]; rewrite !F; cbn [andb];
    eexists; (split; [reflexivity|]); intros x y [Hx Hy]; unfold gx, gy in *; cbn [nth] in *; rewrite !T by assumption; reflexivity.
Qed.

Lemma grid_dims : forall a s, construct a = Ret s -> a_grid a <> [] /\ (List.length (a_grid a) <= 2)%nat.
Proof.
  intros a s H. destruct (construct_inv a s H) as [Hn _]. destruct (new_inv _ _ Hn) as [D _].
  split; [intros E; rewrite E in D; cbn in D|]; lia.
Qed.
Lemma fft2_same : forall g f f', same_on g f f' -> fft2 (gx g) (gy g) f = fft2 (gx g) (gy g) f'.
Proof.
  intros g f f' E. apply FunctionalExtensionality.functional_extensionality. intros k.
  apply FunctionalExtensionality.functional_extensionality. intros l. apply fft2_ext. intros x y Hx Hy. apply E. split; assumption.
Qed.

Lemma serial_decomposition : forall s,
  decomposition (nx (s_hs s) / 2 + 1) (ny (s_hs s)) (serial_ranks s).
Proof.
  intros s. split.
  - intros r [E|[]]. subst r. cbn [fst snd]. lia.
  - intros k l Hk Hl. unfold serial_ranks. cbn [filter].
    unfold in_rect. cbn [fst snd].
    destruct (Nat.leb_spec 0 k); [|lia]. destruct (Nat.leb_spec 0 l); [|lia].
    destruct (Nat.ltb_spec k (0 + (nx (s_hs s) / 2 + 1))); [|lia].
    destruct (Nat.ltb_spec l (0 + ny (s_hs s))); [|lia]. reflexivity.
Qed.

Lemma scalar_product_real : forall a s ranks f g, construct a = Ret s ->
  decomposition (gx (a_grid a) / 2 + 1) (gy (a_grid a)) ranks ->
  scalar_product_k s ranks (fft2 (gx (a_grid a)) (gy (a_grid a)) f)
                           (fft2 (gx (a_grid a)) (gy (a_grid a)) g)
  = inner (a_grid a) f g.
Proof.
  intros a s ranks f g H D. destruct (gx_pos a s H) as [P1 P2].
  pose proof (npts_pos _ _ P1 P2) as N.
  rewrite <- (nx_gx a s H) in D at 1. rewrite <- (ny_gy a s H) in D.
  rewrite scalar_product_decomposed; [|rewrite (nx_gx a s H); assumption|assumption].
  rewrite (nx_gx a s H), (ny_gy a s H).
  rewrite <- (half_plancherel (gx (a_grid a)) (gy (a_grid a))) by assumption.
  unfold inner, total. field. lra.
Qed.

Lemma energy_k_eq : forall a s ranks u, construct a = Ret s ->
  decomposition (gx (a_grid a) / 2 + 1) (gy (a_grid a)) ranks ->
  evaluate_elastic_energy_k_space s ranks
    (evaluate_k_force_k s (fft2 (gx (a_grid a)) (gy (a_grid a)) u))
    (fft2 (gx (a_grid a)) (gy (a_grid a)) u)
  = energy_of a s u.
Proof.
  intros a s ranks u H D. destruct (gx_pos a s H) as [P1 P2].
  pose proof (SS_Herm a s H) as HH.
  rewrite (nx_gx a s H), (ny_gy a s H) in HH.
  unfold evaluate_elastic_energy_k_space.
  set (M := fun x y => - area_per_pt (s_hs s) * mult (gx (a_grid a)) (gy (a_grid a)) (SS s) u x y).
  transitivity (-0.5 * scalar_product_k s ranks
     (fft2 (gx (a_grid a)) (gy (a_grid a)) u) (fft2 (gx (a_grid a)) (gy (a_grid a)) M)).
  - f_equal.
    assert (D' := D).
    rewrite <- (nx_gx a s H) in D' at 1. rewrite <- (ny_gy a s H) in D'.
    assert (HN : (0 < nx (s_hs s))%nat) by (rewrite (nx_gx a s H); assumption).
    rewrite !scalar_product_decomposed by assumption.
    f_equal. apply Rsum_ext. intros k Hk. f_equal. apply Rsum_ext. intros l Hl.
    f_equal. f_equal. unfold M.
    rewrite (nx_gx a s H) in Hk, HN. rewrite (ny_gy a s H) in Hl.
    assert (Nat.div (gx (a_grid a)) 2 < gx (a_grid a))%nat by (apply Nat.div_lt; lia).
    rewrite fft2_scal, fft2_mult by (try assumption; lia).
    unfold evaluate_k_force_k, SS. rewrite RtoC_opp. ring.
  - rewrite (scalar_product_real a s ranks u M H D).
    unfold energy_of, inner, total, dot, M.
    rewrite (Rsum2_ext _ _ _ (fun x y => - area_per_pt (s_hs s) *
       (u x y * mult (gx (a_grid a)) (gy (a_grid a)) (SS s) u x y))) by (intros; ring).
    rewrite Rsum2_scal. lra.
Qed.
