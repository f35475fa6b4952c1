(** * The Green's function of an anisotropic half space: proofs *)

From Coq Require Import Reals Lra Lia Psatz FunctionalExtensionality.
From Coquelicot Require Import Coquelicot.
From Verif Require Import Py FFT_Base GreenwoodTripp_Model Isotropic_Proofs Elasticity_Spec Anisotropic_Spec Anisotropic_Model Anisotropic_Tensor Anisotropic_Field.
From Coq Require Import List.
Import ListNotations.
Local Open Scope R_scope.

(** ** What is assumed of the numerical library *)

Definition cprod (n : nat) (A B : cmx) : cmx := fun i j => Csum n (fun k => (A i k * B k j)%C).
Definition is_eye (n : nat) (A : cmx) : Prop := forall i j, (i < n)%nat -> (j < n)%nat ->
  A i j = if Nat.eqb i j then RtoC 1 else RtoC 0.
(** [np.linalg.solve] returns for regular matrices only, and then a solution. *)
Definition solve_ok (solve : nat -> nat -> cmx -> cmx -> res cmx) : Prop :=
  forall n m A B X, solve n m A B = Ret X ->
    (exists Ai, is_eye n (cprod n A Ai) /\ is_eye n (cprod n Ai A)) /\
    forall i j, (i < n)%nat -> (j < m)%nat -> cprod n A X i j = B i j.
Definition kernel (M : cmx) (v : nat -> C) : Prop :=
  forall i, (i < 3)%nat -> csum3 (fun l => M i l * v l)%C = RtoC 0.
(** scipy's [null_space] with one vector: this vector spans the kernel. *)
Definition null_ok (null_space : cmx -> list (nat -> C)) : Prop :=
  forall M v, null_space M = [v] ->
    (exists i, (i < 3)%nat /\ v i <> RtoC 0) /\ kernel M v /\
    forall w, kernel M w -> exists c, forall i, (i < 3)%nat -> w i = (c * v i)%C.

(** ** Small facts *)

Lemma Csum3 : forall f, Csum 3 f = csum3 f.
Proof. intros. unfold csum3. cbn [Csum]. ring. Qed.
Lemma csum3_ext : forall f g, (forall k, (k < 3)%nat -> f k = g k) -> csum3 f = csum3 g.
Proof. intros f g H. unfold csum3. rewrite !H by lia. reflexivity. Qed.
Lemma sum3s_ext : forall f g, (forall k, (k < 3)%nat -> f k = g k) -> sum3s f = sum3s g.
Proof. intros f g H. unfold sum3s. rewrite !H by lia. reflexivity. Qed.

Lemma csqrt_fst : forall r, 0 <= fst (csqrt r).
Proof. intros. apply sqrt_pos. Qed.
Lemma csqrt_sq : forall r, (csqrt r * csqrt r = r)%C.
Proof.
  intros [x y]. unfold csqrt. cbn [fst snd].
  assert (M : Cmod (x, y) * Cmod (x, y) = x ^ 2 + y ^ 2).
  { unfold Cmod. cbn [fst snd]. apply sqrt_sqrt. pose proof (pow2_ge_0 x). pose proof (pow2_ge_0 y). lra. }
  assert (P := Cmod_ge_0 (x, y)). set (m := Cmod (x, y)) in *. clearbody m.
  assert (A : 0 <= (m + x) / 2) by nra.
  assert (B : 0 <= (m - x) / 2) by nra.
  assert (SA := sqrt_sqrt _ A). assert (SB := sqrt_sqrt _ B).
  assert (AB : sqrt ((m + x) / 2) * sqrt ((m - x) / 2) = Rabs y / 2).
  { rewrite <- sqrt_mult by assumption. replace ((m + x) / 2 * ((m - x) / 2)) with ((Rabs y / 2)²).
    - apply sqrt_Rsqr. pose proof (Rabs_pos y). lra.
    - unfold Rsqr. replace (Rabs y / 2 * (Rabs y / 2)) with (Rabs y * Rabs y / 4) by field.
      replace (Rabs y * Rabs y) with (y * y) by (exact (Rsqr_abs y)). nra. }
  set (a := sqrt ((m + x) / 2)) in *. set (b := sqrt ((m - x) / 2)) in *. clearbody a b.
  apply injective_projections; cbn [fst snd Cmult]; unfold Cmult; cbn [fst snd].
  - destruct (Rlt_dec y 0); nra.
  - destruct (Rlt_dec y 0) as [H|H].
    + rewrite (Rabs_left y H) in AB. nra.
    + rewrite (Rabs_right y) in AB by lra. nra.
Qed.

Lemma elastic_field_ext : forall c c' u t t',
  (forall i j k l, (i < 3)%nat -> (j < 3)%nat -> (k < 3)%nat -> (l < 3)%nat -> c i j k l = c' i j k l) ->
  (forall i x y, (i < 3)%nat -> t i x y = t' i x y) ->
  elastic_field c u t -> elastic_field c' u t'.
Proof.
  intros c c' u t t' Hc Ht [A B D F].
  assert (S : forall i j, (i < 3)%nat -> (j < 3)%nat -> astress c u i j = astress c' u i j).
  { intros i j Hi Hj. do 3 (apply functional_extensionality; intro). unfold astress.
    apply sum3s_ext. intros k Hk. apply sum3s_ext. intros l Hl. rewrite Hc by assumption. reflexivity. }
  constructor.
  - exact A.
  - intros i j Hi Hj. rewrite <- S by assumption. apply B; assumption.
  - intros i x y z Hi. rewrite <- !S by lia. apply D. exact Hi.
  - intros i x y Hi. rewrite <- S by lia. rewrite F by exact Hi. apply Ht. exact Hi.
Qed.

(** ** Linear algebra *)

Lemma cprod_assoc : forall n m A B D i j,
  Csum n (fun k => cprod m A B i k * D k j)%C = Csum m (fun k => A i k * cprod n B D k j)%C.
Proof.
  intros. unfold cprod.
  rewrite (Csum_ext n _ (fun k => Csum m (fun l => A i l * B l k * D k j)%C)).
  2: { intros k _. rewrite <- Csum_scal_r. reflexivity. }
  rewrite Csum_swap. apply Csum_ext. intros l _. rewrite <- Csum_scal. apply Csum_ext. intros k _. ring.
Qed.
Lemma eye_l : forall n (A X : cmx) i j, is_eye n A -> (i < n)%nat -> Csum n (fun k => A i k * X k j)%C = X i j.
Proof.
  intros n A X i j H Hi. rewrite (Csum_ext n _ (fun k => if Nat.eqb k i then X k j else RtoC 0)).
  - rewrite (Csum_delta n i (fun k => X k j)) by exact Hi. reflexivity.
  - intros k Hk. rewrite H by assumption. rewrite (Nat.eqb_sym k i). destruct (Nat.eqb i k); ring.
Qed.

(** From a solved system [Fᵀ X = Uᵀ] to the response of the surface. *)
Lemma solve_response : forall n (F U X Ai : cmx),
  is_eye n (cprod n Ai (transpose F)) ->
  (forall i j, (i < n)%nat -> (j < 3)%nat -> cprod n (transpose F) X i j = transpose U i j) ->
  forall f : nat -> C, exists s : nat -> C,
    (forall i, (i < n)%nat -> Csum n (fun a => F i a * s a)%C = f i) /\
    (forall l, (l < 3)%nat -> Csum n (fun a => U l a * s a)%C = Csum n (fun i => X i l * f i)%C).
Proof.
  intros n F U X Ai HL HX f. pose (s := fun a => Csum n (fun i => Ai i a * f i)%C). exists s.
  assert (K : forall i, (i < n)%nat -> Csum n (fun a => F i a * s a)%C = f i).
  { intros i Hi. unfold s.
    rewrite (Csum_ext n _ (fun a => Csum n (fun i' => F i a * Ai i' a * f i')%C)).
    2: { intros a _. rewrite <- Csum_scal. apply Csum_ext. intros; ring. }
    rewrite Csum_swap.
    rewrite (Csum_ext n _ (fun i' => (if Nat.eqb i' i then f i' else RtoC 0))).
    - rewrite Csum_delta by exact Hi. reflexivity.
    - intros i' Hi'. rewrite Csum_scal_r.
      rewrite (Csum_ext n _ (fun a => Ai i' a * transpose F a i)%C) by (intros; unfold transpose; ring).
      change (Csum n (fun a => Ai i' a * transpose F a i)%C) with (cprod n Ai (transpose F) i' i).
      rewrite HL by assumption. destruct (Nat.eqb i' i); ring. }
  split; [exact K|].
  intros l Hl. clearbody s.
  rewrite (Csum_ext n _ (fun a => Csum n (fun i => X i l * F i a * s a)%C)).
  2: { intros a Ha. change (U l a) with (transpose U a l). rewrite <- HX by assumption. unfold cprod.
       rewrite <- Csum_scal_r. apply Csum_ext. intros i Hi. unfold transpose. ring. }
  rewrite Csum_swap. apply Csum_ext. intros i Hi.
  rewrite <- (K i Hi). rewrite <- Csum_scal. apply Csum_ext. intros a _. ring.
Qed.

(** ** Modes of a returned matrix *)

Lemma seq_res_all : forall {A B} (f : A -> res B) (l : list A) out, seq_res (map f l) = Ret out ->
  length out = length l /\ forall k da db, (k < length l)%nat -> f (nth k l da) = Ret (nth k out db).
Proof.
  intros A B f l. induction l as [|x l IH]; intros out H.
  - cbn in H. injection H as H. subst. split; [reflexivity|]. intros k da db Hk. cbn in Hk. lia.
  - cbn [map seq_res] in H. destruct (f x) as [y|e] eqn:E; [|discriminate]. cbn [bind] in H.
    destruct (seq_res (map f l)) as [ys|e] eqn:E'; [|discriminate]. cbn [bind] in H. injection H as H. subst out.
    destruct (IH ys eq_refl) as [L N]. split; [cbn; lia|]. intros [|k] da db Hk; cbn [nth]; [exact E|].
    apply N. cbn in Hk. lia.
Qed.

Definition roots_short (roots : list C -> list C) : Prop := forall a b c d, (length (roots [a; b; c; d]) <= 3)%nat.

Section Modes.
  Variable solve : nat -> nat -> cmx -> cmx -> res cmx.
  Variable roots : list C -> list C.
  Variable null_space : cmx -> list (nat -> C).
  Hypothesis Hn : null_ok null_space.
  Variable Cm : rmat.

  Definition Frow (qx qy : R) (qz : nat -> C) (eta : nat -> nat -> C) (i a : nat) : C :=
    csum3 (fun k => csum3 (fun l =>
      (Ci * RtoC (elasticity_tensor Cm i 2 k l) * qv qx qy (qz a) k * eta a l)%C)).

  (** What is behind the returned pair of matrices. *)
  Record modes_of (qx qy : R) (thickness : option R) (n : nat) (U F : cmx) (qz : nat -> C) (eta : nat -> nat -> C) : Prop := {
    mo_U : forall k a, U k a = eta a k;
    mo_F : forall i a, (i < 3)%nat -> F i a = Frow qx qy qz eta i a;
    mo_ker : forall a, (a < n)%nat -> kernel (bulkop Cm (RtoC qx) (RtoC qy) (qz a)) (eta a);
    mo_nz : forall a, (a < n)%nat -> exists l, (l < 3)%nat /\ eta a l <> RtoC 0;
    mo_n : n = 3%nat \/ exists h, thickness = Some h /\ n = 6%nat /\
      forall i a, (i < 3)%nat -> F (i + 3)%nat a = (cexp (- Ci * qz a * RtoC h) * eta a i)%C;
    mo_half : n = 3%nat -> forall a, (a < 3)%nat -> snd (qz a) <= 0;
    mo_none : thickness = None -> n = 3%nat;
    mo_big : forall h, thickness = Some h -> n = 3%nat -> exists a, (a < 3)%nat /\ h * - snd (qz a) > 100 }.

  Lemma U_and_F_modes : forall qx qy thickness n U F, roots_short roots ->
    make_U_and_F solve roots null_space Cm qx qy thickness = Ret (n, U, F) ->
    exists qz eta, modes_of qx qy thickness n U F qz eta.
  Proof.
    intros qx qy thickness n U F Hr H. unfold make_U_and_F in H.
    destruct (find_eigenvalues solve roots Cm qx qy) as [q0|e] eqn:E0; [|discriminate]. cbn [bind] in H.
    assert (L0 : (length q0 <= 3)%nat).
    { unfold find_eigenvalues in E0. destruct (solve _ _ _ _) as [p|e]; [|discriminate]. cbn [bind] in E0. injection E0 as <-.
      rewrite map_length. apply Hr. }
    assert (Q0 : forall z, In z q0 -> 0 <= fst z).
    { unfold find_eigenvalues in E0. destruct (solve _ _ _ _) as [p|e]; [|discriminate]. cbn [bind] in E0. injection E0 as <-.
      intros z Hz. apply in_map_iff in Hz. destruct Hz as (r & <- & _). apply csqrt_fst. }
    set (qzl := mode_list thickness q0) in *.
    destruct (find_eigenvectors null_space Cm qx qy qzl) as [eta|e] eqn:E1; [|discriminate]. cbn [bind] in H.
    destruct (make_F Cm qx qy qzl eta thickness) as [F'|e] eqn:E2; [|discriminate]. cbn [bind] in H. injection H as <- <- <-.
    unfold find_eigenvectors in E1. apply seq_res_all in E1. destruct E1 as [L1 N1].
    assert (ML : qzl = map (fun z => - Ci * z)%C q0 \/
                 (qzl = map (fun z => - Ci * z)%C q0 ++ map (fun z => Ci * z)%C q0 /\ exists h, thickness = Some h)).
    { unfold qzl, mode_list. destruct thickness as [h|]; [|left; reflexivity]. destruct (Rgt_dec _ _); [left; reflexivity|right; eauto]. }
    unfold make_F in E2.
    destruct (Nat.ltb_spec (length qzl) 3) as [X|X]; [discriminate|].
    destruct (andb (Nat.ltb 3 (length qzl)) (match thickness with None => true | _ => false end)) eqn:TN; [discriminate|].
    destruct (andb (Nat.ltb 3 (length qzl)) (Nat.ltb (length qzl) 6)) eqn:T6; [discriminate|]. injection E2 as <-.
    exists (mode_qz qzl), (mode_eta eta).
    assert (EV : forall a, (a < length qzl)%nat -> find_eigenvector null_space Cm qx qy (mode_qz qzl a) = Ret (mode_eta eta a)).
    { intros a Ha. unfold mode_qz, mode_eta. apply N1. exact Ha. }
    assert (KV : forall a, (a < length qzl)%nat ->
       (exists i, (i < 3)%nat /\ mode_eta eta a i <> RtoC 0) /\ kernel (bulkop Cm (RtoC qx) (RtoC qy) (mode_qz qzl a)) (mode_eta eta a)).
    { intros a Ha. specialize (EV a Ha). unfold find_eigenvector in EV.
      destruct (null_space (bulkop Cm (RtoC qx) (RtoC qy) (mode_qz qzl a))) as [|v [|v' l]] eqn:NS; try discriminate.
      injection EV as EV. destruct (Hn _ _ NS) as (P1 & P2 & _). rewrite <- EV. auto. }
    constructor.
    - intros. reflexivity.
    - intros i a Hi. destruct (Nat.ltb_spec i 3); [|lia]. reflexivity.
    - intros a Ha. apply KV. exact Ha.
    - intros a Ha. apply KV. exact Ha.
    - destruct ML as [ML|[ML [h Eh]]].
      + left. rewrite ML in X |- *. rewrite map_length in *. lia.
      + destruct (Nat.eq_dec (length qzl) 3) as [E3|E3]; [left; exact E3|right]. exists h. split; [exact Eh|].
        assert (L6 : length qzl = 6%nat).
        { destruct (Nat.ltb_spec 3 (length qzl)); [|lia]. destruct (Nat.ltb_spec (length qzl) 6); [discriminate|].
          rewrite ML, app_length, !map_length in *. lia. }
        split; [exact L6|]. intros i a Hi. destruct (Nat.ltb_spec (i + 3) 3); [lia|]. destruct (Nat.ltb_spec (i + 3) 6); [|lia].
        rewrite Eh. replace (i + 3 - 3)%nat with i by lia. reflexivity.
    - intros E3 a Ha. destruct ML as [ML|[ML _]].
      + unfold mode_qz. assert (IN : In (nth a qzl (RtoC 0)) qzl) by (apply nth_In; lia).
        rewrite ML in IN at 2. apply in_map_iff in IN. destruct IN as (z & Ez & Hz). rewrite <- Ez. apply Q0 in Hz.
        destruct z as [zx zy]. cbn in *. lra.
      + exfalso. rewrite ML, app_length, !map_length in E3. lia.
    - intros ->. destruct ML as [ML|[_ [h Eh]]]; [|discriminate]. rewrite ML in X |- *. rewrite map_length in *. lia.
    - intros h -> E3. unfold qzl, mode_list in E3 |- *.
      destruct (Rgt_dec (fold_right Rmax (fst (RtoC h * hd (RtoC 0) q0)%C) (map (fun z => fst (RtoC h * z)%C) q0)) 100) as [G|G].
      2: { exfalso. rewrite app_length, !map_length in E3. lia. }
      rewrite map_length in E3.
      assert (B : exists z, In z q0 /\ fst (RtoC h * z)%C > 100).
      { assert (HD : In (hd (RtoC 0) q0) q0) by (destruct q0; [discriminate|left; reflexivity]).
        revert G HD. generalize (hd (RtoC 0) q0). intros z0 G HD.
        assert (FR : forall l, fold_right Rmax (fst (RtoC h * z0)%C) (map (fun z => fst (RtoC h * z)%C) l) > 100 ->
                  fst (RtoC h * z0)%C > 100 \/ exists z, In z l /\ fst (RtoC h * z)%C > 100).
        { intros l. induction l as [|z l IH]; intros Gl; cbn [map fold_right] in Gl; [left; exact Gl|].
          unfold Rmax in Gl at 1. destruct (Rle_dec _ _).
          - destruct (IH Gl) as [W|(w & W1 & W2)]; [left; exact W|right; exists w; split; [right; exact W1|exact W2]].
          - right. exists z. split; [left; reflexivity|exact Gl]. }
        destruct (FR _ G) as [W|W]; [exists z0; split; assumption|exact W]. }
      destruct B as (z & Hz & B). destruct (In_nth q0 z (RtoC 0) Hz) as (a & Ha & Ea). exists a. split; [lia|].
      unfold mode_qz. rewrite (nth_indep _ _ (- Ci * RtoC 0)%C) by (rewrite map_length; exact Ha).
      rewrite (map_nth (fun z => - Ci * z)%C), Ea. destruct z as [zx zy]. cbn in B |- *. lra.
  Qed.

  (** The elastic field with the forces [f] on the surface, for the wavevector
      multiplied by [sc]. *)
  Lemma modes_response : forall qx qy thickness n U F qz eta X Ai sc (f : nat -> C), 0 < sc ->
    modes_of qx qy thickness n U F qz eta ->
    is_eye n (cprod n Ai (transpose F)) ->
    (forall i j, (i < n)%nat -> (j < 3)%nat -> cprod n (transpose F) X i j = transpose U i j) ->
    exists u,
      elastic_field (elasticity_tensor Cm) u (fun i x y => wave (sc * qx) (sc * qy) (f i) x y) /\
      (forall l x y, (l < 3)%nat -> u l x y 0 = wave (sc * qx) (sc * qy) (csum3 (fun i => X i l / RtoC sc * f i))%C x y) /\
      ((forall a, (a < n)%nat -> snd (qz a) < 0) -> forall l x y, (l < 3)%nat -> is_lim (fun z => u l x y z) m_infty 0) /\
      (forall h, n = 6%nat -> thickness = Some (h * sc) -> forall l x y, (l < 3)%nat -> u l x y (- h) = 0).
  Proof.
    intros qx qy thickness n U F qz eta X Ai sc f Hsc M HL HX.
    pose (g := fun i => if Nat.ltb i 3 then f i else RtoC 0).
    destruct (solve_response n F U X Ai HL HX g) as (s & SF & SU).
    assert (Hsc' : RtoC sc <> RtoC 0) by (intro E; apply RtoC_inj in E; lra).
    pose (s' := fun a => (s a / RtoC sc)%C).
    pose (qz' := fun a => (RtoC sc * qz a)%C).
    assert (N3 : (3 <= n)%nat) by (destruct (mo_n _ _ _ _ _ _ _ _ M) as [->|(h & _ & -> & _)]; lia).
    assert (QV : forall a k, qv (sc * qx) (sc * qy) (qz' a) k = (RtoC sc * qv qx qy (qz a) k)%C).
    { intros a [|[|k]]; cbn; unfold qz'; rewrite ?RtoC_mult; reflexivity. }
    assert (BK : forall a i l, bulkop Cm (RtoC (sc * qx)) (RtoC (sc * qy)) (qz' a) i l = (RtoC sc * RtoC sc * bulkop Cm (RtoC qx) (RtoC qy) (qz a) i l)%C).
    { intros a i l. unfold bulkop, csum3.
      repeat match goal with |- context [qvec (RtoC (sc * qx)) (RtoC (sc * qy)) ?c ?k] =>
        change (qvec (RtoC (sc * qx)) (RtoC (sc * qy)) c k) with (qv (sc * qx) (sc * qy) c k) end.
      repeat match goal with |- context [qvec (RtoC qx) (RtoC qy) ?c ?k] =>
        change (qvec (RtoC qx) (RtoC qy) c k) with (qv qx qy c k) end.
      rewrite !QV. ring. }
    assert (Hnull : forall a i, (a < n)%nat -> (i < 3)%nat ->
      csum3 (fun l => bulkop Cm (RtoC (sc * qx)) (RtoC (sc * qy)) (qz' a) i l * eta a l)%C = RtoC 0).
    { intros a i Ha Hi. assert (K := mo_ker _ _ _ _ _ _ _ _ M a Ha i Hi).
      transitivity (RtoC sc * RtoC sc * csum3 (fun l => bulkop Cm (RtoC qx) (RtoC qy) (qz a) i l * eta a l))%C.
      - unfold csum3. rewrite !BK. ring.
      - rewrite K. ring. }
    exists (um (sc * qx) (sc * qy) n qz' eta s'). split; [|split; [|split]].
    - eapply elastic_field_ext; [| |apply (modes_elastic (sc * qx) (sc * qy) n qz' Cm eta s' Hnull)].
      + reflexivity.
      + intros i x y Hi. cbv beta. apply (f_equal (fun A => wave (sc * qx) (sc * qy) A x y)).
        assert (G : f i = g i) by (unfold g; destruct (Nat.ltb_spec i 3); [reflexivity|lia]).
        rewrite G, <- (SF i) by lia. apply Csum_ext. intros a Ha. rewrite (mo_F _ _ _ _ _ _ _ _ M i a Hi).
        unfold sm, s', Frow, csum3. rewrite !QV. field. exact Hsc'.
    - intros l x y Hl. rewrite um_surface. apply (f_equal (fun A => wave (sc * qx) (sc * qy) A x y)).
      transitivity (Csum n (fun a => U l a * s a)%C / RtoC sc)%C.
      + unfold Cdiv. rewrite <- Csum_scal_r. apply Csum_ext. intros a _. rewrite (mo_U _ _ _ _ _ _ _ _ M). unfold s', Cdiv. ring.
      + rewrite SU by exact Hl. replace n with (3 + (n - 3))%nat at 1 by lia. rewrite Csum_split, Csum3.
        rewrite (Csum_ext (n - 3) _ (fun _ => RtoC 0)), Csum_0.
        * unfold csum3, g. cbn [Nat.ltb Nat.leb]. field. exact Hsc'.
        * intros i _. unfold g. destruct (Nat.ltb_spec (3 + i) 3); [lia|]. ring.
    - intros Hd l x y _. apply um_decay. intros a Ha. unfold qz'. specialize (Hd a Ha). cbn. nra.
    - intros h E6 Et l x y Hl. rewrite um_depth.
      destruct (mo_n _ _ _ _ _ _ _ _ M) as [E3|(h' & Eh & _ & FB)]; [lia|].
      assert (h' = h * sc) by congruence. subst h'.
      transitivity (wave (sc * qx) (sc * qy) (RtoC 0) x y); [|unfold wave; cbn; ring].
      apply (f_equal (fun A => wave (sc * qx) (sc * qy) A x y)).
      transitivity (Csum n (fun a => F (l + 3)%nat a * s a) / RtoC sc)%C.
      + unfold Cdiv. rewrite <- Csum_scal_r. apply Csum_ext. intros a _. rewrite FB by exact Hl.
        unfold s', qz', Cdiv. replace (- Ci * (RtoC sc * qz a) * RtoC h)%C with (- Ci * qz a * RtoC (h * sc))%C by (rewrite RtoC_mult; ring).
        ring.
      + rewrite SF by lia. unfold g. destruct (Nat.ltb_spec (l + 3) 3); [lia|]. field. exact Hsc'.
  Qed.
End Modes.
