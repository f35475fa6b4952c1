(** * Primal and dual problem of a periodic half-space *)
From Coq Require Import Reals ZArith Lia Lra List Arith Bool.
From Verif Require Import Py FFT_Base HalfSpace_Model HalfSpace_Spec HalfSpace_Proofs
  HalfSpace_Results HalfSpace_Results2 Free_Model Free_Spec Free_Proofs Free_Results
  Prop_HalfSpace Systems_Model Systems_Spec Systems_Proofs Systems_Results.
Import ListNotations.
Local Open Scope R_scope.

Lemma points_pos_nth : forall sh, (0 < points sh)%nat -> nth 1 sh 1%nat <> 0%nat.
Proof.
  intros sh H E. destruct sh as [|n [|m sh]]; cbn in E; try discriminate.
  subst m. unfold points in H. cbn in H. lia.
Qed.

Lemma okgrid_points : forall g, okgrid g -> (0 < points g)%nat.
Proof. intros g O. rewrite (npts_grid g O). destruct O as (_ & A & B). nia. Qed.

Lemma points_prod : forall sh, size sh = points sh.
Proof. reflexivity. Qed.

(** Minimality of a value among the values returned for admissible arrays. *)
Definition least (n : nat) (sh : list nat) (obj : arr -> state * res value) (E : R) : Prop :=
  forall z, a_shape z = sh -> nonneg n z ->
  exists E' gr' y', obj z = (y', Ret (Some E', Some gr')) /\ E <= E'.

Section Both.
  Variables (sh : list nat) (n : nat) (f : arr -> R) (gr hs : arr -> arr).
  Variable obj : arr -> state * res value.
  Hypothesis Qd : quadratic sh n f gr hs.
  Hypothesis N : (nth 1 sh 1%nat <> 0)%nat.
  Hypothesis O : forall z, a_shape z = sh -> exists v y, obj z = (y, Ret (Some (f z), Some v))
    /\ same_entries n v (gr z).

  Lemma kkt_iff : (forall d, a_shape d = sh -> 0 <= vdot n (hs d) d) ->
    forall x E v y, a_shape x = sh -> obj x = (y, Ret (Some E, Some v)) ->
    (complementary n x v <-> nonneg n x /\ least n sh obj E).
  Proof.
    intros P x E v y Hx Hv. destruct (O x Hx) as (v' & y' & V1 & V2). rewrite V1 in Hv.
    injection Hv as -> <- ->. split.
    - intros K. split; [apply K|]. intros z Hz Nz.
      destruct (O z Hz) as (w & y2 & W1 & _). exists (f z), w, y2. split; [exact W1|].
      apply (kkt_sufficient sh n f gr hs Qd P x Hx); try assumption.
      apply (complementary_ext n x v); assumption.
    - intros [Nx L]. apply (complementary_ext n x (gr x)); [apply same_entries_sym; exact V2|].
      apply (kkt_necessary sh n f gr hs Qd N x Hx Nx). intros z Hz Nz.
      destruct (L z Hz Nz) as (E' & gr' & y2 & A & B). destruct (O z Hz) as (w & y3 & W1 & _).
      rewrite W1 in A. injection A as _ <- _. exact B.
  Qed.

  Lemma kkt_only_if : forall x E v y, a_shape x = sh -> obj x = (y, Ret (Some E, Some v)) ->
    nonneg n x -> least n sh obj E -> complementary n x v.
  Proof.
    intros x E v y Hx Hv Nx L. destruct (O x Hx) as (v' & y' & V1 & V2). rewrite V1 in Hv.
    injection Hv as -> <- ->.
    apply (complementary_ext n x (gr x)); [apply same_entries_sym; exact V2|].
    apply (kkt_necessary sh n f gr hs Qd N x Hx Nx). intros z Hz Nz.
    destruct (L z Hz Nz) as (E' & gr' & y2 & A & B). destruct (O z Hz) as (w & y3 & W1 & _).
    rewrite W1 in A. injection A as _ <- _. exact B.
  Qed.

  (** Strictly convex: only one. *)
  Lemma kkt_unique : (forall d, a_shape d = sh -> 0 <= vdot n (hs d) d) ->
    (forall d, a_shape d = sh -> vdot n (hs d) d = 0 -> forall k, (k < n)%nat -> entry d k = 0) ->
    forall x z, a_shape x = sh -> a_shape z = sh ->
    complementary n x (gr x) -> complementary n z (gr z) -> same_entries n x z.
  Proof.
    intros P P0 x z Hx Hz Kx Kz.
    pose proof (kkt_sufficient sh n f gr hs Qd P z Hz Kz x Hx (proj1 Kx)) as L.
    set (d := arr_add z (scaled (-1) x)).
    assert (Hd : a_shape d = sh) by exact Hz.
    assert (Ed : forall k, entry d k = entry z k - entry x k).
    { intros k. unfold d. rewrite entry_add by (cbn; congruence). rewrite entry_scaled. ring. }
    assert (F : f (arr_add x d) = f z).
    { apply (qd_ext _ _ _ _ _ Qd); [exact Hx|exact Hz|]. intros k _.
      rewrite entry_add by congruence. rewrite Ed. ring. }
    rewrite (qd_expand _ _ _ _ _ Qd x d Hx Hd) in F.
    assert (G : 0 <= vdot n (gr x) d).
    { destruct Kx as (_ & Gx & Cx). destruct Kz as (Nz & _).
      assert (X : vdot n (gr x) d = vdot n (gr x) z - vdot n x (gr x)).
      { assert (Y : vdot n (gr x) d + vdot n x (gr x) = vdot n (gr x) z); [|lra].
        unfold vdot. rewrite <- Rsum_plus. apply Rsum_ext. intros k Hk. rewrite Ed. ring. }
      rewrite X, Cx. assert (0 <= vdot n (gr x) z); [|lra].
      unfold vdot. apply Rsum_nonneg. intros k Hk. apply Rmult_le_pos; auto. }
    assert (Z : vdot n (hs d) d = 0) by (specialize (P d Hd); lra).
    intros k Hk. specialize (P0 d Hd Z k Hk). rewrite Ed in P0. lra.
  Qed.
End Both.

Lemma flat_of_entries : forall g a f, okgrid g -> same_entries (points g) a (mkArr g f) ->
  same_on g (unflat g a) f.
Proof.
  intros g a f G H x y Hg. pose proof Hg as [Hx Hy]. unfold unflat. rewrite H.
  - apply entry_grid. exact Hy.
  - rewrite (npts_grid g G). apply index_lt; assumption.
Qed.

Section PeriodicKKT.
  Variables (a : args) (s : sub) (sf : surface) (off : R).
  Hypothesis H : construct a = Ret s.
  Hypothesis Hp : pos_args a.
  Hypothesis F : sf_grid sf = a_grid a.
  Let g := a_grid a.
  Let Lf := val_of (evaluate_force s) g.
  Let Ld := val_of (evaluate_disp s) g.
  Let h := a_val (heights sf).
  Let OK : okgrid g := per_grid a s H.
  Let SD : symop g (sb_disp (periodic s)) Ld := per_disp a s H.
  Let SF : symop g (sb_force (periodic s)) Lf := per_force a s H.

  Lemma per_primal_obj : forall sh y, points sh = points g -> forall z, a_shape z = sh ->
    exists v y', primal_objective (periodic s) sf off true z y
       = (y', Ret (Some (f_primal g Lf h off z), Some v))
      /\ same_entries (points g) v (g_primal g Lf h off z).
  Proof.
    intros sh y P z Hz. destruct (per_shapes a s H) as (T & U & _).
    destruct (primal_value (periodic s) sf g Lf OK T U F (per_force a s H) (per_quad a s H) off true z y)
      as (v & y' & A & _ & B).
    { rewrite Hz. exact P. }
    exists v, y'. split; [exact A|exact B].
  Qed.

  Lemma per_dual_obj : forall sh y, points sh = points g -> forall z, a_shape z = sh ->
    exists v y', dual_objective (periodic s) sf off true z y
       = (y', Ret (Some (f_dual g Ld h off z), Some v))
      /\ same_entries (points g) v (g_dual g Ld h off z).
  Proof.
    intros sh y P z Hz. destruct (per_shapes a s H) as (T & U & _).
    destruct (dual_value (periodic s) sf g Ld OK T F (per_disp a s H) off z y)
      as (E & v & y' & A & -> & _ & B & _).
    { rewrite Hz. exact P. }
    exists v, y'. split; [exact A|exact B].
  Qed.

  (** The two maps are each other's inverse. *)
  Lemma per_inv1 : a_q0 a <> Some 0 -> forall u, same_on g (Ld (Lf u)) u.
  Proof.
    intros Q u. destruct (C20_inverse a s u H Hp Q) as (_ & (v & f' & A & B & C)).
    intros x y Hg. rewrite <- (C x y Hg). unfold Ld, Lf, val_of, g. rewrite A.
    destruct (so_ret _ _ _ SF u) as (v' & V1 & _). cbn [periodic sb_force] in V1.
    unfold g in V1. rewrite A in V1. injection V1 as ->. cbn [a_val]. rewrite B. reflexivity.
  Qed.
  Lemma per_inv2 : a_q0 a <> Some 0 -> forall u, same_on g (Lf (Ld u)) u.
  Proof.
    intros Q u. destruct (C20_inverse a s u H Hp Q) as ((v & f' & A & B & C) & _).
    intros x y Hg. rewrite <- (C x y Hg). unfold Ld, Lf, val_of, g. rewrite A.
    destruct (so_ret _ _ _ SD u) as (v' & V1 & _). cbn [periodic sb_disp] in V1.
    unfold g in V1. rewrite A in V1. injection V1 as ->. cbn [a_val]. rewrite B. reflexivity.
  Qed.

  Lemma per_swap_primal : a_q0 a <> Some 0 -> forall x p, same_entries (points g) p (g_primal g Lf h off x) ->
    f_dual g Ld h off p = vdot (points g) p x - f_primal g Lf h off x
    /\ same_entries (points g) (g_dual g Ld h off p) x.
  Proof.
    intros Q x p E.
    set (u := fun i j => unflat g x i j + h i j + off).
    assert (P : same_on g (unflat g p) (fun i j => - Lf u i j)).
    { apply (flat_of_entries g p _ OK). exact E. }
    assert (D : same_on g (Ld (unflat g p)) (fun i j => - u i j)).
    { intros i j Hg. rewrite (so_ext _ _ _ SD _ _ P i j Hg).
      rewrite (so_opp _ _ _ SD (Lf u) i j Hg). f_equal. apply (per_inv1 Q). exact Hg. }
    split.
    - unfold f_dual, f_primal. fold u.
      rewrite (vdot_field g p _ x OK E).
      rewrite (inner_ext g _ _ _ _ P D).
      rewrite (inner_ext g (unflat g p) (fun i j => - Lf u i j) (fun x y => h x y + off)
        (fun i j => u i j - unflat g x i j)) by (try exact P; intros i j _; unfold u; ring).
      rewrite !inner_opp_l. fold u.
      rewrite !(inner_comm g (Lf u)). rewrite !inner_opp_l.
      rewrite (inner_ext g (fun i j => u i j - unflat g x i j)
        (fun i j => 1 * u i j + (-1) * unflat g x i j) (Lf u) (Lf u)) by (intros ? ? _; ring).
      rewrite inner_lin. lra.
    - intros k Hk. rewrite <- (entry_unflat g x k OK).
      unfold g_dual. apply (entry_ext g _ _ k OK); [|exact Hk].
      intros i j Hg. rewrite (D i j Hg). unfold u. ring.
  Qed.

  Lemma per_swap_dual : a_q0 a <> Some 0 -> forall p x, same_entries (points g) x (g_dual g Ld h off p) ->
    f_primal g Lf h off x = vdot (points g) p x - f_dual g Ld h off p
    /\ same_entries (points g) (g_primal g Lf h off x) p.
  Proof.
    intros Q p x E.
    set (q := unflat g p).
    assert (X : same_on g (unflat g x) (fun i j => - Ld q i j - h i j - off)).
    { apply (flat_of_entries g x _ OK). exact E. }
    assert (U : same_on g (fun i j => unflat g x i j + h i j + off) (fun i j => - Ld q i j)).
    { intros i j Hg. rewrite (X i j Hg). ring. }
    assert (P : same_on g (Lf (fun i j => unflat g x i j + h i j + off)) (fun i j => - q i j)).
    { intros i j Hg. rewrite (so_ext _ _ _ SF _ _ U i j Hg).
      rewrite (so_opp _ _ _ SF (Ld q) i j Hg). f_equal. apply (per_inv2 Q). exact Hg. }
    split.
    - unfold f_dual, f_primal. fold q.
      rewrite (vdot_comm _ p x), (vdot_field g x _ p OK E). fold q.
      rewrite (inner_ext g _ _ _ _ U P).
      rewrite !inner_opp_l. rewrite (inner_comm g (Ld q)), inner_opp_l.
      rewrite (inner_ext g (fun i j => - Ld q i j - h i j - off)
        (fun i j => (-1) * Ld q i j + (-1) * (h i j + off)) q q) by (intros ? ? _; ring).
      rewrite inner_lin. rewrite (inner_comm g (Ld q) q), (inner_comm g (fun x y => h x y + off) q). lra.
    - intros k Hk. rewrite <- (entry_unflat g p k OK).
      unfold g_primal. apply (entry_ext g _ _ k OK); [|exact Hk].
      intros i j Hg. rewrite (P i j Hg). unfold q. ring.
  Qed.

  Lemma per_primal_strict : a_q0 a <> Some 0 -> forall d, vdot (points g) (h_op g Lf d) d = 0 ->
    forall k, (k < points g)%nat -> entry d k = 0.
  Proof.
    intros Q d Z k Hk. unfold h_op in Z.
    rewrite (vdot_field g _ _ _ OK (same_entries_refl _ _)), inner_opp_l, inner_comm in Z.
    destruct (C23_energy_nonneg a s (unflat g d) H Hp) as (E & f & A & _ & B).
    destruct (qo_eval _ _ _ (per_quad a s H) (unflat g d)) as (v & V1 & _).
    cbn [periodic sb_eval] in V1. fold g in A. fold g Lf in V1. rewrite A in V1. injection V1 as V1 _.
    assert (E = 0) by lra. destruct (B H0) as [_ B2].
    rewrite <- (entry_unflat g d k OK), (entry_mk g _ k OK). apply (B2 Q). apply on_grid_k; assumption.
  Qed.
End PeriodicKKT.
