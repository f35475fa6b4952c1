(** * Properties of the contact systems (C40-C45, C47)

    Vocabulary: [HalfSpace_Spec], [Free_Spec], [Systems_Spec].
    [construct a = Ret s] ([free_construct], [semi_construct]): the substrate
    [s] has been constructed with arguments [a]; [periodic s] ([free s],
    [semi s]) is that substrate as a system sees it.  [sf] is a topography
    with heights [heights sf].  [y] is an arbitrary state of the system before
    the call. *)
From Coq Require Import Reals ZArith Lia Lra List Arith Bool.
From Verif Require Import Py FFT_Base HalfSpace_Model HalfSpace_Spec HalfSpace_Proofs
  HalfSpace_Results HalfSpace_Results2 HalfSpace_Witness Free_Model Free_Spec Free_Proofs Free_Results
  Prop_HalfSpace Prop_Free Systems_Model Systems_Spec Systems_Proofs Systems_Results Systems_Results2.
Import ListNotations.
Local Open Scope R_scope.

(** ** C40 Primal objective has the reported gradient *)

(** The value is the elastic energy stored by the displacement
    [gap + heights + offset], the gradient is minus the substrate force; the
    array may have any shape with the right number of entries. *)
Theorem C40_primal_value : forall a s sf off x y, construct a = Ret s ->
  sf_grid sf = a_grid a -> points (a_shape x) = points (a_grid a) ->
  exists E gr y' y'' u f,
    primal_objective (periodic s) sf off true x y = (y', Ret (Some E, Some gr))
    /\ primal_objective (periodic s) sf off false x y = (y'', Ret (Some E, None))
    /\ a_shape u = a_grid a
    /\ (forall k, (k < points (a_grid a))%nat ->
          entry u k = entry x k + entry (heights sf) k + off)
    /\ evaluate s u true true = Ret (Some E, Some f)
    /\ a_shape gr = [points (a_grid a)]
    /\ (forall k, (k < points (a_grid a))%nat -> entry gr k = - entry f k).
Proof.
  intros a s sf off x y H F N. pose proof (per_grid a s H) as OK. set (g := a_grid a) in *.
  destruct (per_shapes a s H) as (T & U & _).
  destruct (primal_value (periodic s) sf g _ OK T U F (per_force a s H) (per_quad a s H) off true x y N)
    as (v & y' & A1 & A2 & A3).
  destruct (primal_value (periodic s) sf g _ OK T U F (per_force a s H) (per_quad a s H) off false x y N)
    as (v' & y'' & B1 & _).
  set (u := fun i j => unflat g x i j + a_val (heights sf) i j + off) in *.
  destruct (qo_eval _ _ _ (per_quad a s H) u) as (w & W1 & W2).
  do 3 eexists. exists y'', (mkArr g u). eexists. split; [exact A1|]. split; [exact B1|].
  split; [reflexivity|]. split.
  { intros k Hk. rewrite (entry_mk g _ k OK). unfold u.
    rewrite <- (entry_mk g (unflat g x) k OK), (entry_unflat g x k OK).
    rewrite (heights_eq sf g F), (entry_mk g _ k OK). reflexivity. }
  split; [exact W1|]. split; [exact A2|].
  intros k Hk. rewrite A3 by exact Hk. rewrite !(entry_mk g _ k OK).
  rewrite W2 by (apply on_grid_k; assumption). reflexivity.
Qed.
Print Assumptions C40_primal_value.

Theorem C40_primal_gradient : forall a s sf off x d y, construct a = Ret s ->
  sf_grid sf = a_grid a -> points (a_shape x) = points (a_grid a) -> a_shape d = a_shape x ->
  exists E gr E' gr' hd y1 y2 y3,
    primal_objective (periodic s) sf off true x y = (y1, Ret (Some E, Some gr))
    /\ primal_objective (periodic s) sf off false x y = (y3, Ret (Some E, None))
    /\ primal_objective (periodic s) sf off true (arr_add x d) y = (y2, Ret (Some E', Some gr'))
    /\ primal_hessian_product (periodic s) d = Ret hd /\ a_shape hd = a_shape d
    /\ E' = E + vdot (points (a_grid a)) gr d + 1 / 2 * vdot (points (a_grid a)) hd d
    /\ (forall k, (k < points (a_grid a))%nat -> entry gr' k = entry gr k + entry hd k).
Proof.
  intros a s sf off x d y H F N Hd. destruct (per_shapes a s H) as (T & U & _).
  exact (primal_expand (periodic s) sf _ _ (per_grid a s H) T U F (per_force a s H) (per_quad a s H)
    off x d y N Hd).
Qed.
Print Assumptions C40_primal_gradient.

(** Arrays of the wrong size are rejected. *)
Theorem C40_wrong_size_raises : forall a s sf off gr x y, construct a = Ret s ->
  points (a_shape x) <> points (a_grid a) ->
  primal_objective (periodic s) sf off gr x y = (y, Exc ValueErr)
  /\ primal_hessian_product (periodic s) x = Exc ValueErr.
Proof.
  intros a s sf off gr x y H N. destruct (per_shapes a s H) as (T & U & _).
  unfold primal_objective, primal_hessian_product. rewrite U, (reshape_bad x _ N). split; reflexivity.
Qed.
Print Assumptions C40_wrong_size_raises.

(** A free half-space does not support the primal objective: the gap is
    reshaped to the padded grid and cannot be added to the heights. *)
Theorem C40_free_raises : forall a s sf off gr x y, free_construct a = Ret s ->
  sf_grid sf = fa_grid a -> (2 <= gx (fa_grid a) \/ 2 <= gy (fa_grid a))%nat ->
  primal_objective (free s) sf off gr x y = (y, Exc ValueErr).
Proof.
  intros a s sf off gr x y H F N. destruct (free_inv a s H) as (L & G & Dom & _).
  unfold primal_objective. cbn [free sb_sub]. rewrite Dom.
  unfold mbind at 1, lift at 1, reshape.
  destruct (Nat.eqb _ _); [|reflexivity].
  unfold mbind at 1, lift at 1, heights. rewrite F.
  unfold gx, gy in N. destruct (fa_grid a) as [|n [|m [|? ?]]]; try discriminate.
  cbn [nth] in N. unfold binop. cbn [map a_shape a_val].
  unfold bext.
  destruct (Nat.eqb_spec (2 * n) n); destruct (Nat.eqb_spec (2 * m) m);
  destruct (Nat.eqb_spec (2 * n) 1); destruct (Nat.eqb_spec (2 * m) 1);
  destruct (Nat.eqb_spec n 1); destruct (Nat.eqb_spec m 1); try lia; try reflexivity.
  all: exfalso; destruct (g_pos _ _ G) as [P1 P2]; unfold gx, gy in *; cbn [nth] in *; lia.
Qed.
Print Assumptions C40_free_raises.

Definition hsurf := mkSurface (a_grid hsA) (fun x y => INR x - 2 * INR y) (fun _ _ => 0) 1 1.
Definition fsurf := mkSurface (fa_grid fhA) (fun x y => INR x - 2 * INR y) (fun _ _ => 0) 1 1.
Definition ssurf := mkSurface (fa_grid (sa_base shA)) (fun x y => INR x - 2 * INR y) (fun _ _ => 0) 1 1.
Example C40_nonvacuous :
  ((exists s, construct hsA = Ret s) /\ sf_grid hsurf = a_grid hsA
   /\ points [points (a_grid hsA)] = points (a_grid hsA))
  /\ points [3%nat] <> points (a_grid hsA)
  /\ ((exists s, free_construct fhA = Ret s) /\ sf_grid fsurf = fa_grid fhA
      /\ (2 <= gx (fa_grid fhA) \/ 2 <= gy (fa_grid fhA))%nat).
Proof.
  split; [split; [exact hsA_ok|split; reflexivity]|]. split; [discriminate|].
  split; [exact (proj1 fh_ok)|]. split; [reflexivity|]. left. cbn. lia.
Qed.

(** ** C41 Dual objective has the reported gradient *)

(** For a substrate [sb] on the topography grid [g] these are the two
    statements: value and gradient in terms of the displacements the substrate
    computes, and the expansion around any pressure. *)
Definition dual_spec (sb : substrate) (sf : surface) (g : list nat) : Prop :=
  (forall off x y, points (a_shape x) = points g ->
     exists E gr y' u,
       dual_objective sb sf off true x y = (y', Ret (Some E, Some gr))
       /\ sb_disp sb (mkArr g (fun i j => - entry x (i * gy g + j)%nat)) = Ret u
       /\ E = 1 / 2 * vdot (points g) x u
              - Rsum (points g) (fun k => entry x k * (entry (heights sf) k + off))
       /\ a_shape gr = [points g]
       /\ (forall k, (k < points g)%nat -> entry gr k = entry u k - entry (heights sf) k - off))
  /\ (forall off x d y, points (a_shape x) = points g -> a_shape d = a_shape x ->
     exists E gr E' gr' hd y1 y2,
       dual_objective sb sf off true x y = (y1, Ret (Some E, Some gr))
       /\ dual_objective sb sf off true (arr_add x d) y = (y2, Ret (Some E', Some gr'))
       /\ dual_hessian_product sb d = Ret hd /\ a_shape hd = a_shape d
       /\ E' = E + vdot (points g) gr d + 1 / 2 * vdot (points g) hd d
       /\ (forall k, (k < points g)%nat -> entry gr' k = entry gr k + entry hd k)).

Lemma dual_spec_of : forall sb sf g L, okgrid g -> sb_topo sb = g -> sf_grid sf = g ->
  symop g (sb_disp sb) L -> dual_spec sb sf g.
Proof.
  intros sb sf g L OK T F S. split.
  - intros off x y N.
    destruct (dual_value sb sf g L OK T F S off x y N) as (E & gr & y' & A1 & A2 & A3 & A4 & _).
    destruct (so_ret _ _ _ S (fun i j => - entry x (i * gy g + j)%nat)) as (u & U1 & U2).
    exists E, gr, y', (mkArr g u). split; [exact A1|]. split; [exact U1|].
    assert (UE : same_on g u (fun i j => - L (unflat g x) i j)).
    { intros i j Hg. rewrite (U2 i j Hg).
      apply (so_opp _ _ _ S (unflat g x)). exact Hg. }
    split; [|split; [exact A3|]].
    + rewrite A2. f_equal.
      * rewrite vdot_comm, (vdot_field g (mkArr g u) u x OK (same_entries_refl _ _)).
        rewrite (inner_ext g _ _ (unflat g x) (unflat g x) UE) by (intros ? ? _; reflexivity).
        rewrite inner_opp_l, (inner_comm g (L _)). lra.
      * transitivity (vdot (points g) x (mkArr g (fun i j => a_val (heights sf) i j + off))).
        -- rewrite vdot_comm, (vdot_field g (mkArr g _) _ x OK (same_entries_refl _ _)).
           rewrite inner_comm. reflexivity.
        -- unfold vdot. apply Rsum_ext. intros k Hk. f_equal.
           rewrite (heights_eq sf g F), !(entry_mk g _ k OK). reflexivity.
    + intros k Hk. rewrite A4 by exact Hk. rewrite (heights_eq sf g F), !(entry_mk g _ k OK).
      rewrite (UE _ _ (on_grid_k g k OK Hk)). reflexivity.
  - intros off x d y N Hd. exact (dual_expand sb sf g L OK T F S off x d y N Hd).
Qed.

Theorem C41_dual_gradient : forall a s sf, construct a = Ret s -> sf_grid sf = a_grid a ->
  dual_spec (periodic s) sf (a_grid a).
Proof.
  intros a s sf H F. destruct (per_shapes a s H) as (T & U & _).
  exact (dual_spec_of _ _ _ _ (per_grid a s H) T F (per_disp a s H)).
Qed.
Print Assumptions C41_dual_gradient.

Lemma direct_okgrid : forall s g per K, direct_sub s g per K -> okgrid g.
Proof. intros s g per K D. destruct D as [_ [L1 _] P _ _ _ _]. split; [right; exact L1|exact P]. Qed.

Theorem C41_dual_gradient_free : forall a s sf, free_construct a = Ret s -> sf_grid sf = fa_grid a ->
  cell_size (fa_sizes a) 0 <> 0 -> cell_size (fa_sizes a) 1 <> 0 ->
  dual_spec (free s) sf (fa_grid a).
Proof.
  intros a s sf H F Z0 Z1. pose proof (free_direct a s H (conj Z0 Z1)) as D.
  destruct (ds_pos _ _ _ _ D) as [P0 P1].
  apply (dual_spec_of (free s) _ _ _ (direct_okgrid _ _ _ _ D)
    (topo_shape_eq _ _ _ _ D) F (direct_symop _ _ _ _ D
      (fun i j => influence_even _ _ _ i j (spacing_neq _ _ Z0 P0) (spacing_neq _ _ Z1 P1)))).
Qed.
Print Assumptions C41_dual_gradient_free.

Theorem C41_dual_gradient_semi : forall a s sf, semi_construct a = Ret s ->
  sf_grid sf = fa_grid (sa_base a) ->
  cell_size (fa_sizes (sa_base a)) 0 <> 0 -> cell_size (fa_sizes (sa_base a)) 1 <> 0 ->
  dual_spec (semi s) sf (fa_grid (sa_base a)).
Proof.
  intros a s sf H F Z0 Z1. pose proof (semi_direct a s H (conj Z0 Z1)) as D.
  destruct (ds_pos _ _ _ _ D) as [P0 P1].
  apply (dual_spec_of (semi s) _ _ _ (direct_okgrid _ _ _ _ D)
    (topo_shape_eq _ _ _ _ D) F (direct_symop _ _ _ _ D
      (fun i j => image_influence_even _ _ _ _ _ i j
        (spacing_neq _ _ Z0 P0) (spacing_neq _ _ Z1 P1)))).
Qed.
Print Assumptions C41_dual_gradient_semi.

(** The gradient cannot be left out. *)
Theorem C41_without_gradient_raises : forall sb sf off x y,
  dual_objective sb sf off false x y = (y, Exc NotImplementedErr).
Proof. reflexivity. Qed.
Print Assumptions C41_without_gradient_raises.

(** In a parallel run the reported energy is a process's own part: the parts
    add up to the energy, but the part of one process can have another
    gradient (and sign) than the objective. *)
Theorem C41_parallel_partition : forall gx gy c p u h off, (c <= gx)%nat ->
  dual_energy_on (mkDec (0, 0) (c, gy))%nat p u h off
  + dual_energy_on (mkDec (c, 0) (gx - c, gy))%nat p u h off
  = dual_energy_on (mkDec (0, 0) (gx, gy))%nat p u h off.
Proof.
  intros gx gy c p u h off Hc. unfold dual_energy_on. cbn [d_loc d_n fst snd].
  replace gx with (c + (gx - c))%nat at 3 4 by lia.
  unfold Rsum2. rewrite !Rsum_split. cbn [Nat.add]. lra.
Qed.
Print Assumptions C41_parallel_partition.

Theorem C41_parallel_refuted : exists p u h : field, exists off,
  dual_energy_on (mkDec (0, 0) (2, 1))%nat p u h off = 1
  /\ dual_energy_on (mkDec (0, 0) (1, 1))%nat p u h off = 1
  /\ dual_energy_on (mkDec (1, 0) (1, 1))%nat p u h off = 0.
Proof.
  exists (fun x _ => if Nat.eqb x 0 then 1 else 0), (fun _ _ => 0), (fun _ _ => -1), 0.
  unfold dual_energy_on, Rsum2. cbn. lra.
Qed.
Print Assumptions C41_parallel_refuted.
Example C41_nonvacuous :
  ((exists s, construct hsA = Ret s) /\ sf_grid hsurf = a_grid hsA)
  /\ ((exists s, free_construct fhA = Ret s) /\ sf_grid fsurf = fa_grid fhA
      /\ cell_size (fa_sizes fhA) 0 <> 0 /\ cell_size (fa_sizes fhA) 1 <> 0)
  /\ ((exists s, semi_construct shA = Ret s) /\ sf_grid ssurf = fa_grid (sa_base shA)
      /\ cell_size (fa_sizes (sa_base shA)) 0 <> 0 /\ cell_size (fa_sizes (sa_base shA)) 1 <> 0)
  /\ points [points (a_grid hsA)] = points (a_grid hsA).
Proof.
  split; [exact (conj hsA_ok eq_refl)|]. split; [split; [exact (proj1 fh_ok)|split; [reflexivity|cbn; lra]]|].
  split; [|reflexivity]. split; [exact (proj1 sh_ok)|split; [reflexivity|cbn; lra]].
Qed.

(** ** C42 Primal and dual problems have the same solution *)

(** A gap is a global minimiser of the primal objective among the
    non-negative arrays of its shape exactly if it and the gradient are
    non-negative and complementary. *)
Theorem C42_primal_optimality : forall a s sf off x y E gr y',
  construct a = Ret s -> pos_args a -> sf_grid sf = a_grid a ->
  points (a_shape x) = points (a_grid a) ->
  primal_objective (periodic s) sf off true x y = (y', Ret (Some E, Some gr)) ->
  (complementary (points (a_grid a)) x gr <->
   nonneg (points (a_grid a)) x /\
   forall z, a_shape z = a_shape x -> nonneg (points (a_grid a)) z ->
     exists E' gr' y'', primal_objective (periodic s) sf off true z y = (y'', Ret (Some E', Some gr'))
       /\ E <= E').
Proof.
  intros a s sf off x y E gr y' H Hp F N V. pose proof (per_grid a s H) as OK.
  apply (kkt_iff (a_shape x) _ _ _ _ (fun z => primal_objective (periodic s) sf off true z y)
    (primal_quadratic (a_grid a) _ _ (a_val (heights sf)) off OK (per_force a s H) (a_shape x))) with (y := y').
  - apply points_pos_nth. rewrite N. apply okgrid_points. exact OK.
  - intros z Hz. exact (per_primal_obj a s sf off H F (a_shape x) y N z Hz).
  - intros d _. apply (h_op_psd _ _ OK). exact (per_force_nonpos a s H Hp).
  - reflexivity.
  - exact V.
Qed.
Print Assumptions C42_primal_optimality.

Theorem C42_dual_optimality : forall a s sf off p y D gr y',
  construct a = Ret s -> pos_args a -> sf_grid sf = a_grid a ->
  points (a_shape p) = points (a_grid a) ->
  dual_objective (periodic s) sf off true p y = (y', Ret (Some D, Some gr)) ->
  (complementary (points (a_grid a)) p gr <->
   nonneg (points (a_grid a)) p /\
   forall z, a_shape z = a_shape p -> nonneg (points (a_grid a)) z ->
     exists D' gr' y'', dual_objective (periodic s) sf off true z y = (y'', Ret (Some D', Some gr'))
       /\ D <= D').
Proof.
  intros a s sf off p y D gr y' H Hp F N V. pose proof (per_grid a s H) as OK.
  apply (kkt_iff (a_shape p) _ _ _ _ (fun z => dual_objective (periodic s) sf off true z y)
    (dual_quadratic (a_grid a) _ _ (a_val (heights sf)) off OK (per_disp a s H) (a_shape p))) with (y := y').
  - apply points_pos_nth. rewrite N. apply okgrid_points. exact OK.
  - intros z Hz. exact (per_dual_obj a s sf off H F (a_shape p) y N z Hz).
  - intros d _. apply (h_op_psd _ _ OK). exact (per_disp_nonpos a s H Hp).
  - reflexivity.
  - exact V.
Qed.
Print Assumptions C42_dual_optimality.

(** Gradient and variable swap roles: the dual objective at the primal
    gradient returns the primal variable as its gradient, and the values add
    up to the (vanishing at a solution) work of the pressure on the gap. *)
Theorem C42_swap : forall a s sf off x y E G y', construct a = Ret s -> pos_args a ->
  a_q0 a <> Some 0 -> sf_grid sf = a_grid a -> points (a_shape x) = points (a_grid a) ->
  primal_objective (periodic s) sf off true x y = (y', Ret (Some E, Some G)) ->
  exists D x' y'', dual_objective (periodic s) sf off true G y = (y'', Ret (Some D, Some x'))
    /\ D + E = vdot (points (a_grid a)) G x
    /\ same_entries (points (a_grid a)) x' x.
Proof.
  intros a s sf off x y E G y' H Hp Q F N V. pose proof (per_grid a s H) as OK.
  destruct (primal_value (periodic s) sf _ _ OK (proj1 (per_shapes a s H))
    (proj1 (proj2 (per_shapes a s H))) F (per_force a s H) (per_quad a s H) off true x y N)
    as (v & y1 & A1 & A2 & A3). rewrite A1 in V. injection V as -> <- ->.
  destruct (per_dual_obj a s sf off H F [points (a_grid a)] y (Nat.mul_1_r _) G A2) as (x' & y2 & B1 & B2).
  destruct (per_swap_primal a s sf off H Hp Q x G A3) as [C1 C2].
  do 3 eexists. split; [exact B1|]. split.
  - rewrite C1. unfold f_primal, heights. cbn [a_val]. ring.
  - intros k Hk. rewrite B2 by exact Hk. apply C2. exact Hk.
Qed.
Print Assumptions C42_swap.

Theorem C42_swap_back : forall a s sf off p y D x y', construct a = Ret s -> pos_args a ->
  a_q0 a <> Some 0 -> sf_grid sf = a_grid a -> points (a_shape p) = points (a_grid a) ->
  dual_objective (periodic s) sf off true p y = (y', Ret (Some D, Some x)) ->
  exists E p' y'', primal_objective (periodic s) sf off true x y = (y'', Ret (Some E, Some p'))
    /\ D + E = vdot (points (a_grid a)) p x
    /\ same_entries (points (a_grid a)) p' p.
Proof.
  intros a s sf off p y D x y' H Hp Q F N V. pose proof (per_grid a s H) as OK.
  destruct (dual_value (periodic s) sf _ _ OK (proj1 (per_shapes a s H)) F (per_disp a s H) off p y N)
    as (D1 & v & y1 & A1 & A2 & A3 & A4 & _). rewrite A1 in V. injection V as -> <- ->.
  destruct (per_primal_obj a s sf off H F [points (a_grid a)] y (Nat.mul_1_r _) x A3) as (p' & y2 & B1 & B2).
  destruct (per_swap_dual a s sf off H Hp Q p x A4) as [C1 C2].
  do 3 eexists. split; [exact B1|]. split.
  - rewrite C1, A2. unfold f_dual, heights. cbn [a_val]. ring.
  - intros k Hk. rewrite B2 by exact Hk. apply C2. exact Hk.
Qed.
Print Assumptions C42_swap_back.

(** Hence a solution of one problem gives a solution of the other, with the
    opposite value. *)
Theorem C42_same_solution : forall a s sf off x y E G y', construct a = Ret s -> pos_args a ->
  a_q0 a <> Some 0 -> sf_grid sf = a_grid a -> points (a_shape x) = points (a_grid a) ->
  primal_objective (periodic s) sf off true x y = (y', Ret (Some E, Some G)) ->
  complementary (points (a_grid a)) x G ->
  exists x' y'', dual_objective (periodic s) sf off true G y = (y'', Ret (Some (- E), Some x'))
    /\ complementary (points (a_grid a)) G x'
    /\ same_entries (points (a_grid a)) x' x.
Proof.
  intros a s sf off x y E G y' H Hp Q F N V K.
  destruct (C42_swap a s sf off x y E G y' H Hp Q F N V) as (D & x' & y'' & A & B & C).
  destruct K as (K1 & K2 & K3). rewrite vdot_comm in K3.
  exists x', y''. split; [rewrite A; do 4 f_equal; lra|]. split; [|exact C].
  apply (complementary_ext _ G x); [apply same_entries_sym; exact C|].
  split; [exact K2|]. split; [exact K1|exact K3].
Qed.
Print Assumptions C42_same_solution.

(** There is only one. *)
Theorem C42_unique : forall a s sf off x z y E G E' G' y1 y2, construct a = Ret s -> pos_args a ->
  a_q0 a <> Some 0 -> sf_grid sf = a_grid a -> points (a_shape x) = points (a_grid a) ->
  a_shape z = a_shape x ->
  primal_objective (periodic s) sf off true x y = (y1, Ret (Some E, Some G)) ->
  primal_objective (periodic s) sf off true z y = (y2, Ret (Some E', Some G')) ->
  complementary (points (a_grid a)) x G -> complementary (points (a_grid a)) z G' ->
  same_entries (points (a_grid a)) x z.
Proof.
  intros a s sf off x z y E G E' G' y1 y2 H Hp Q F N Hz V W K K'. pose proof (per_grid a s H) as OK.
  pose proof (per_primal_obj a s sf off H F (a_shape x) y N) as O.
  destruct (O x eq_refl) as (v & y3 & A1 & A2). rewrite A1 in V. injection V as -> <- ->.
  destruct (O z Hz) as (w & y4 & B1 & B2). rewrite B1 in W. injection W as -> <- ->.
  apply (kkt_unique (a_shape x) _ _ _ _
    (primal_quadratic (a_grid a) _ _ (a_val (heights sf)) off OK (per_force a s H) (a_shape x))).
  - intros d _. apply (h_op_psd _ _ OK). exact (per_force_nonpos a s H Hp).
  - intros d _ Z. exact (per_primal_strict a s H Hp Q d Z).
  - reflexivity.
  - exact Hz.
  - apply (complementary_ext _ x G); assumption.
  - apply (complementary_ext _ z G'); assumption.
Qed.
Print Assumptions C42_unique.

(** For the free half-space: a minimiser of the dual objective satisfies the
    contact conditions. *)
Theorem C42_free_minimiser : forall a s sf off p y D gr y', free_construct a = Ret s ->
  sf_grid sf = fa_grid a -> cell_size (fa_sizes a) 0 <> 0 -> cell_size (fa_sizes a) 1 <> 0 ->
  points (a_shape p) = points (fa_grid a) ->
  dual_objective (free s) sf off true p y = (y', Ret (Some D, Some gr)) ->
  nonneg (points (fa_grid a)) p ->
  (forall z, a_shape z = a_shape p -> nonneg (points (fa_grid a)) z ->
     exists D' gr' y'', dual_objective (free s) sf off true z y = (y'', Ret (Some D', Some gr'))
       /\ D <= D') ->
  complementary (points (fa_grid a)) p gr.
Proof.
  intros a s sf off p y D gr y' H F Z0 Z1 N V Np Hm.
  pose proof (free_direct a s H (conj Z0 Z1)) as Di. pose proof (direct_okgrid _ _ _ _ Di) as OK.
  destruct (ds_pos _ _ _ _ Di) as [P0 P1].
  pose proof (direct_symop _ _ _ _ Di
      (fun i j => influence_even _ (fa_young a) _ i j (spacing_neq _ _ Z0 P0) (spacing_neq _ _ Z1 P1))) as S.
  apply (kkt_only_if (a_shape p) _ _ _ _ (fun z => dual_objective (free s) sf off true z y)
    (dual_quadratic (fa_grid a) _ _ (a_val (heights sf)) off OK S (a_shape p))) with (E := D) (y := y').
  - apply points_pos_nth. rewrite N. apply okgrid_points. exact OK.
  - intros z Hz.
    destruct (dual_value (free s) sf _ _ OK (topo_shape_eq _ _ _ _ Di) F S off z y)
      as (E & v & y1 & A & -> & _ & B & _).
    { rewrite Hz. exact N. }
    exists v, y1. split; [exact A|exact B].
  - reflexivity.
  - exact V.
  - exact Np.
  - exact Hm.
Qed.
Print Assumptions C42_free_minimiser.

(** Full contact: a flat topography pressed in by one unit of length. *)
Definition flat_surf := mkSurface (a_grid hsA) (fun _ _ => 0) (fun _ _ => 0) 1 1.
Example C42_nonvacuous :
  (exists s, construct hsA = Ret s /\ pos_args hsA /\ a_q0 hsA <> Some 0
   /\ sf_grid flat_surf = a_grid hsA
   /\ exists E G y', primal_objective (periodic s) flat_surf 1 true (mkArr [4; 3]%nat (fun _ _ => 0)) fresh
        = (y', Ret (Some E, Some G))
      /\ complementary (points (a_grid hsA)) (mkArr [4; 3]%nat (fun _ _ => 0)) G
      /\ 0 < entry G 0)
  /\ ((exists s, construct hsB = Ret s) /\ pos_args hsB /\ a_q0 hsB = Some 0)
  /\ (exists s, free_construct fhA = Ret s).
Proof.
  split; [|split; [exact (conj hsB_ok (conj hsB_pos eq_refl))|exact (proj1 fh_ok)]].
  destruct hsA_ok as [s H]. exists s. split; [exact H|]. split; [exact hsA_pos|].
  split; [discriminate|]. split; [reflexivity|].
  destruct (C40_primal_value hsA s flat_surf 1 (mkArr [4; 3]%nat (fun _ _ => 0)) fresh H eq_refl eq_refl)
    as (E & G & y' & _ & u & f & A & _ & A2 & A3 & A4 & A5 & A6).
  pose proof (per_grid hsA s H) as OK.
  destruct (multiplier_wave _ _ _ _ (force_multiplier hsA s H) 0%nat 0%nat 0) as (f' & W1 & W2);
    [cbn; lia|cbn; lia|].
  assert (PW : forall g i j, plane_wave g 0 0 0 i j = 1).
  { intros g i j. unfold plane_wave. change (INR 0) with 0.
    match goal with |- cos ?t = 1 => replace t with 0 by (unfold Rdiv; ring) end. apply cos_0. }
  assert (P : 0 < s_ss s 0 0).
  { rewrite (ss_val hsA s H hsA_pos).
    - assert (zeroed (s_hs s) 0 0 = false) as ->.
      { destruct (construct_inv hsA s H) as [Hn _]. unfold zeroed.
        destruct (zero_thick_q0 _ _ Hn) as [Eq _]. rewrite Eq. reflexivity. }
      apply (sigma_pos hsA s H hsA_pos); [rewrite (nx_gx hsA s H)|rewrite (ny_gy hsA s H)]; cbn; lia.
    - rewrite (nx_gx hsA s H); cbn; lia.
    - rewrite (ny_gy hsA s H); cbn; lia. }
  assert (AR : 0 < area_per_pt (s_hs s)).
  { destruct (construct_inv hsA s H) as [Hn _]. exact (area_pos _ _ Hn hsA_pos). }
  assert (F : forall k, (k < 12)%nat -> entry f k = - area_per_pt (s_hs s) * s_ss s 0 0).
  { intros k Hk.
    assert (EF : evaluate_force s u = Ret f).
    { unfold evaluate in A4. destruct (evaluate_force s u); [|discriminate]. injection A4 as _ ->. reflexivity. }
    destruct u as [gu u]. cbn [a_shape] in A2. subst gu.
    assert (U : same_on (a_grid hsA) u (plane_wave (a_grid hsA) 0 0 0)).
    { intros i j [Hi Hj]. specialize (A3 (i * gy (a_grid hsA) + j)%nat).
      rewrite entry_grid in A3 by exact Hj. rewrite A3.
      - rewrite PW. unfold entry. cbn [a_val heights flat_surf sf_base sf_plastic]. lra.
      - rewrite (npts_grid _ OK). apply index_lt; assumption. }
    destruct (so_ret _ _ _ (per_force hsA s H) u) as (v & V1 & V2). cbn [periodic sb_force] in V1.
    rewrite EF in V1. injection V1 as ->. rewrite (entry_mk _ _ k OK).
    pose proof (on_grid_k _ k OK Hk) as OG. rewrite V2 by exact OG.
    rewrite (so_ext _ _ _ (per_force hsA s H) _ _ U) by exact OG.
    unfold val_of. rewrite W1, W2 by exact OG. rewrite PW. unfold SS. cbn [Complex.Re Complex.RtoC fst].
    ring. }
  exists E, G, y'. split; [exact A|].
  assert (Z : forall k, entry (mkArr [4; 3]%nat (fun _ _ => 0)) k = 0) by reflexivity.
  assert (GP : forall k, (k < 12)%nat -> 0 < entry G k).
  { intros k Hk. rewrite A6, F by exact Hk. nra. }
  split; [|apply GP; lia]. split; [intros k _; rewrite Z; lra|].
  split; [intros k Hk; apply Rlt_le, GP; exact Hk|].
  unfold vdot. transitivity (Rsum (points (a_grid hsA)) (fun _ => 0)); [|apply Rsum_0].
  apply Rsum_ext. intros k _. rewrite Z. ring.
Qed.

(** ** C43 System state after minimize_proxy *)

(** [entries a]: sum of all entries; [contacts a]: number of positive ones. *)
Definition entries (a : arr) : R := Rsum (points (a_shape a)) (entry a).
Definition contacts (a : arr) : R :=
  Rsum (points (a_shape a)) (fun k => if Rlt_dec 0 (entry a k) then 1 else 0).

Lemma contacts_eq : forall a, asum (mkArr (a_shape a) (fun i j =>
  if (if Rlt_dec 0 (a_val a i j) then true else false) then 1 else 0)) = contacts a.
Proof.
  intros a. unfold asum, contacts. apply Rsum_ext. intros k _. unfold flat, entry. cbn [a_shape a_val].
  destruct (Rlt_dec _ _); reflexivity.
Qed.

Theorem C43_success : forall sb r y, o_success r = true ->
  exists y' out, minimize_proxy sb (Ret r) y = (y', out)
    /\ y_disp y' = Some (o_x r) /\ y_force y' = Some (o_jac r) /\ y_sforce y' = Some (o_jac r)
    /\ y_offset y' = Some (o_offset r)
    /\ (exists z, y_zone y' = Some (a_shape (o_jac r), z)
          /\ forall i j, z i j = true <-> 0 < a_val (o_jac r) i j)
    /\ compute_normal_force y' = Some (entries (o_jac r))
    /\ compute_nb_contact_pts y' = Some (contacts (o_jac r))
    /\ compute_contact_area sb y' = Some (contacts (o_jac r) * sb_area sb)
    /\ (forall e, out = Exc e <-> sb_check sb (o_jac r) = Exc e)
    /\ (sb_check sb (o_jac r) = Ret tt -> out = Ret r).
Proof.
  intros sb r y S. unfold minimize_proxy, mbind, upd, lift. rewrite S.
  destruct (sb_check sb (o_jac r)) as [[]|e] eqn:C; (do 2 eexists; split; [reflexivity|]);
  cbn [y_disp y_force y_sforce y_offset y_zone reset];
  (split; [reflexivity|split; [reflexivity|split; [reflexivity|split; [reflexivity|]]]]);
  (split; [eexists; split; [reflexivity|]; intros i j; cbn; destruct (Rlt_dec 0 (a_val (o_jac r) i j));
     split; intros; try assumption; try reflexivity; try discriminate; contradiction|]);
  (split; [reflexivity|]); unfold compute_contact_area, compute_nb_contact_pts; cbn [y_zone positive_zone];
  rewrite contacts_eq; (split; [reflexivity|]); (split; [reflexivity|]).
  - split; [|reflexivity]. intros e. split; discriminate.
  - split; [|discriminate]. intros e'. split; intros E; injection E as ->; reflexivity.
Qed.
Print Assumptions C43_success.

(** The relative contact area is the fraction of grid points in contact. *)
Theorem C43_relative_area : forall sb r y, o_success r = true ->
  (exists s, sb = periodic s) \/ (exists s, sb = free s) \/ (exists s, sb = semi s) ->
  (forall l, In l (sb_sizes sb) -> l <> 0) -> (forall n, In n (sb_grid sb) -> n <> 0%nat) ->
  compute_relative_contact_area sb (fst (minimize_proxy sb (Ret r) y))
    = Some (contacts (o_jac r) / INR (points (sb_grid sb)))
  /\ 0 <= contacts (o_jac r) <= INR (points (a_shape (o_jac r))).
Proof.
  intros sb r y S K HS HG.
  assert (PG : fold_right Rmult 1 (map INR (sb_grid sb)) = INR (points (sb_grid sb))).
  { clear. induction (sb_grid sb) as [|n g IH]; [reflexivity|]. cbn [map fold_right]. rewrite IH.
    unfold points. cbn [fold_right]. rewrite mult_INR. reflexivity. }
  assert (G0 : INR (points (sb_grid sb)) <> 0).
  { rewrite <- PG. revert HG. clear. induction (sb_grid sb) as [|n g IH]; intros H; [cbn; lra|].
    cbn [map fold_right]. apply Rmult_integral_contrapositive_currified.
    - apply not_0_INR. apply H. left. reflexivity.
    - apply IH. intros m Hm. apply H. right. exact Hm. }
  assert (S0 : fold_right Rmult 1 (sb_sizes sb) <> 0).
  { revert HS. clear. induction (sb_sizes sb) as [|n g IH]; intros H; [cbn; lra|].
    cbn [fold_right]. apply Rmult_integral_contrapositive_currified.
    - apply H. left. reflexivity.
    - apply IH. intros m Hm. apply H. right. exact Hm. }
  assert (AR : sb_area sb = fold_right Rmult 1 (sb_sizes sb) / INR (points (sb_grid sb))).
  { rewrite <- PG. destruct K as [[s ->]|[[s ->]|[s ->]]]; reflexivity. }
  split.
  - destruct (C43_success sb r y S) as (y' & out & E & _ & _ & _ & _ & _ & _ & _ & A & _).
    rewrite E. cbn [fst]. unfold compute_relative_contact_area. rewrite A, AR. f_equal. field. split; assumption.
  - unfold contacts. split.
    + apply Rsum_nonneg. intros i _. destruct (Rlt_dec _ _); lra.
    + rewrite <- (Rmult_1_r (INR _)), <- Rsum_const. 
      set (m := points (a_shape (o_jac r))). clearbody m. induction m as [|m IH]; [cbn; lra|].
      cbn [Rsum]. destruct (Rlt_dec _ _); lra.
Qed.
Print Assumptions C43_relative_area.

(** Failure or exception: displacement, force and contact zone are gone, the
    rest of the state is that from before the call. *)
Theorem C43_failure : forall sb solver y,
  (forall r, solver = Ret r -> o_success r = false) ->
  exists y', minimize_proxy sb solver y = (y', solver)
    /\ y_disp y' = None /\ y_force y' = None /\ y_zone y' = None
    /\ y_gap y' = y_gap y /\ y_energy y' = y_energy y /\ y_offset y' = y_offset y
    /\ y_sforce y' = y_sforce y /\ y_gradient y' = y_gradient y.
Proof.
  intros sb solver y H. unfold minimize_proxy, mbind, upd, lift.
  destruct solver as [r|e].
  - rewrite (H r eq_refl). exists (reset y). repeat split; reflexivity.
  - exists (reset y). repeat split; reflexivity.
Qed.
Print Assumptions C43_failure.

(** Any history of calls: [offset] and [substrate.force] (hence the normal
    force) are those of the last successful call, if there was one. *)
Definition runs (sb : substrate) (hist : list (res oresult)) (y : state) : state :=
  fold_left (fun y s => fst (minimize_proxy sb s y)) hist y.
Definition succeeded (s : res oresult) : Prop := exists r, s = Ret r /\ o_success r = true.

Theorem C43_history : forall sb before r after y, o_success r = true ->
  (forall s, In s after -> ~ succeeded s) ->
  let y' := runs sb (before ++ Ret r :: after) y in
  y_offset y' = Some (o_offset r) /\ y_sforce y' = Some (o_jac r)
  /\ compute_normal_force y' = Some (entries (o_jac r))
  /\ (after = [] -> y_disp y' = Some (o_x r) /\ y_force y' = Some (o_jac r))
  /\ (after <> [] -> y_disp y' = None /\ y_force y' = None /\ y_zone y' = None).
Proof.
  intros sb before r after y S. revert before y.
  induction after as [|s after IH] using rev_ind; intros before y N y'; unfold y', runs.
  - rewrite fold_left_app. cbn [fold_left].
    destruct (C43_success sb r (fold_left (fun y s => fst (minimize_proxy sb s y)) before y) S)
      as (y1 & out & E & A1 & A2 & A3 & A4 & _ & A5 & _).
    rewrite E. cbn [fst]. rewrite A1, A2, A3, A4, A5. repeat split; try reflexivity; congruence.
  - replace (before ++ Ret r :: after ++ [s]) with ((before ++ Ret r :: after) ++ [s])
      by (rewrite <- app_assoc; reflexivity).
    rewrite fold_left_app. cbn [fold_left].
    destruct (IH before y) as (B1 & B2 & B3 & _).
    { intros s' I. apply N. apply in_or_app. left. exact I. }
    fold (runs sb (before ++ Ret r :: after) y). set (y0 := runs sb (before ++ Ret r :: after) y) in *.
    destruct (C43_failure sb s y0) as (y1 & E & A1 & A2 & A3 & A4 & A5 & A6 & A7 & _).
    { intros r' E. destruct (o_success r') eqn:Er; [|reflexivity]. exfalso.
      apply (N s); [apply in_or_app; right; left; reflexivity|]. exists r'. auto. }
    rewrite E. cbn [fst]. unfold compute_normal_force in *.
    rewrite A1, A2, A3, A6, A7. rewrite B1, B2. rewrite B2 in B3.
    split; [reflexivity|]. split; [reflexivity|]. split; [exact B3|].
    split; [intros X; destruct after; discriminate|]. auto.
Qed.
Print Assumptions C43_history.

(** The gap and the energy are not refreshed: they can belong to another
    displacement. *)
Theorem C43_gap_energy_refuted : forall sb r y,
  y_gap (fst (minimize_proxy sb (Ret r) y)) = y_gap y
  /\ y_energy (fst (minimize_proxy sb (Ret r) y)) = y_energy y.
Proof.
  intros sb r y. unfold minimize_proxy, mbind, upd, lift.
  destruct (o_success r); [|split; reflexivity].
  destruct (sb_check sb (o_jac r)) as [[]|e]; split; reflexivity.
Qed.
Print Assumptions C43_gap_energy_refuted.

(** [primal_minimize_proxy] and [dual_minimize_proxy] around an arbitrary
    optimiser that ended with result [r]. *)
Lemma heights_shift : forall sf sh x off, okgrid sh -> a_shape x = sh ->
  points sh = points (sf_grid sf) ->
  exists u, bind (reshape (heights sf) sh) (fun h => binop Rplus (amap (fun z => z + off) x) h) = Ret u
    /\ a_shape u = sh
    /\ forall k, (k < points sh)%nat -> entry u k = entry x k + entry (heights sf) k + off.
Proof.
  intros sf sh x off OK Hx N.
  rewrite (reshape_ok (heights sf) sh) by (symmetry; exact N). cbn [bind].
  destruct x as [sx x]. cbn [a_shape] in Hx. subst sx.
  change (amap (fun z => z + off) (mkArr sh x)) with (mkArr sh (fun i j => x i j + off)).
  destruct (binop_same Rplus sh (fun i j => x i j + off) (unflat sh (heights sf)) OK) as (v & V1 & V2).
  exists (mkArr sh v). split; [exact V1|]. split; [reflexivity|].
  intros k Hk. rewrite !(entry_mk sh _ k OK). rewrite V2 by (apply on_grid_k; assumption).
  rewrite <- (entry_unflat sh (heights sf) k OK), (entry_mk sh _ k OK). ring.
Qed.

Theorem C43_primal_success : forall sb sf off g0 opt y y1 r,
  exec (primal_objective sb sf off true) (primal_hessian_product sb) (opt g0) (reset y) = (y1, Ret r) ->
  o_success r = true -> (length (a_shape (o_x r)) = 1 \/ length (a_shape (o_x r)) = 2)%nat ->
  points (a_shape (o_x r)) = points (sf_grid sf) -> (0 < points (sf_grid sf))%nat ->
  exists y' u, primal_minimize_proxy sb sf off (Some g0) true opt y = (y', Ret r)
    /\ y_gap y' = Some (o_x r) /\ y_force y' = Some (o_jac r) /\ y_sforce y' = Some (o_jac r)
    /\ y_offset y' = Some off
    /\ (exists z, y_zone y' = Some (a_shape (o_x r), z) /\ forall i j, z i j = true <-> a_val (o_x r) i j = 0)
    /\ y_disp y' = Some u /\ a_shape u = a_shape (o_x r)
    /\ (forall k, (k < points (sf_grid sf))%nat ->
          entry u k = entry (o_x r) k + entry (heights sf) k + off)
    /\ compute_normal_force y' = Some (entries (o_jac r)).
Proof.
  intros sb sf off g0 opt y y1 r E S L N P.
  assert (OK : okgrid (a_shape (o_x r))).
  { split; [exact L|]. unfold gx, gy. rewrite <- N in P. unfold points in P.
    destruct (a_shape (o_x r)) as [|n [|m [|? ?]]]; cbn in *; lia. }
  destruct (heights_shift sf _ (o_x r) off OK eq_refl N) as (u & U1 & U2 & U3).
  unfold primal_minimize_proxy. cbn [negb]. unfold mbind at 1, upd at 1. unfold mbind at 1.
  rewrite E, S. unfold mbind, upd, lift. rewrite U1.
  do 2 eexists. split; [reflexivity|]. cbn [y_disp y_force y_sforce y_offset y_zone y_gap].
  do 4 (split; [reflexivity|]). split.
  { eexists. split; [reflexivity|]. intros i j. cbn.
    destruct (Req_EM_T (a_val (o_x r) i j) 0); split; intros; try assumption; try reflexivity;
      try discriminate; contradiction. }
  split; [reflexivity|]. split; [exact U2|]. split; [|reflexivity].
  intros k Hk. apply U3. rewrite N. exact Hk.
Qed.
Print Assumptions C43_primal_success.

Theorem C43_dual_success : forall sb sf off f0 opt y y1 r,
  a_shape f0 = sb_topo sb ->
  exec (dual_objective sb sf off true) (dual_hessian_product sb) (opt f0) (reset y) = (y1, Ret r) ->
  o_success r = true -> (length (a_shape (o_jac r)) = 1 \/ length (a_shape (o_jac r)) = 2)%nat ->
  points (a_shape (o_jac r)) = points (sf_grid sf) -> (0 < points (sf_grid sf))%nat ->
  exists y' u, dual_minimize_proxy sb sf off (Some f0) true opt y = (y', Ret r)
    /\ y_force y' = Some (o_x r) /\ y_sforce y' = Some (o_x r) /\ y_gap y' = Some (o_jac r)
    /\ y_offset y' = Some off
    /\ (exists z, y_zone y' = Some (a_shape (o_x r), z) /\ forall i j, z i j = true <-> 0 < a_val (o_x r) i j)
    /\ y_disp y' = Some u /\ a_shape u = a_shape (o_jac r)
    /\ (forall k, (k < points (sf_grid sf))%nat ->
          entry u k = entry (o_jac r) k + entry (heights sf) k + off)
    /\ compute_normal_force y' = Some (entries (o_x r))
    /\ compute_nb_contact_pts y' = Some (contacts (o_x r)).
Proof.
  intros sb sf off f0 opt y y1 r T E S L N P.
  assert (OK : okgrid (a_shape (o_jac r))).
  { split; [exact L|]. unfold gx, gy. rewrite <- N in P. unfold points in P.
    destruct (a_shape (o_jac r)) as [|n [|m [|? ?]]]; cbn in *; lia. }
  destruct (heights_shift sf _ (o_jac r) off OK eq_refl N) as (u & U1 & U2 & U3).
  unfold dual_minimize_proxy. cbn [negb]. unfold mbind at 1, upd at 1.
  rewrite T, shape_eqb_refl. cbn [negb]. unfold mbind at 1.
  rewrite E, S. unfold mbind, upd, lift. rewrite U1.
  do 2 eexists. split; [reflexivity|]. cbn [y_disp y_force y_sforce y_offset y_zone y_gap].
  do 4 (split; [reflexivity|]). split.
  { eexists. split; [reflexivity|]. intros i j. cbn.
    destruct (Rlt_dec 0 (a_val (o_x r) i j)); split; intros; try assumption; try reflexivity;
      try discriminate; contradiction. }
  split; [reflexivity|]. split; [exact U2|].
  split; [|split; [reflexivity|unfold compute_nb_contact_pts; cbn [y_zone positive_zone]; rewrite contacts_eq; reflexivity]].
  intros k Hk. apply U3. rewrite N. exact Hk.
Qed.
Print Assumptions C43_dual_success.

(** Argument errors. *)
Theorem C43_argument_errors : forall sb sf off init opt y,
  primal_minimize_proxy sb sf off init false opt y = (y, Exc ValueErr)
  /\ dual_minimize_proxy sb sf off init false opt y = (y, Exc ValueErr)
  /\ primal_minimize_proxy sb sf off None true opt y = (reset y, Exc AttributeErr)
  /\ dual_minimize_proxy sb sf off None true opt y = (reset y, Exc AttributeErr)
  /\ (forall f0, a_shape f0 <> sb_topo sb ->
       dual_minimize_proxy sb sf off (Some f0) true opt y = (reset y, Exc IncompatibleResolutionErr)).
Proof.
  intros. do 4 (split; [reflexivity|]). intros f0 N. unfold dual_minimize_proxy, mbind, upd. cbn [negb].
  destruct (shape_eqb (a_shape f0) (sb_topo sb)) eqn:E; [|reflexivity].
  apply shape_eqb_spec in E. contradiction.
Qed.
Print Assumptions C43_argument_errors.

(** An optimiser that makes an objective call and then succeeds. *)
Definition one_query (x : arr) : program :=
  Ask x (fun v => Finish (Ret (mkOres true x (match snd v with Some g => g | None => x end) 0 (fun _ _ => false)))).
Example C43_nonvacuous :
  (o_success (mkOres true (mkArr [2%nat] (fun x _ => INR x)) (mkArr [2%nat] (fun x _ => - INR x)) 3 (fun _ _ => true)) = true)
  /\ (forall r, Exc RuntimeErr = Ret r -> o_success r = false)
  /\ (forall s, In s [@Exc oresult RuntimeErr] -> ~ succeeded s)
  /\ (exists s y1 r, construct hsA = Ret s
      /\ exec (primal_objective (periodic s) hsurf 1 true) (primal_hessian_product (periodic s))
           (one_query (mkArr [4; 3]%nat (fun _ _ => 0))) (reset fresh) = (y1, Ret r)
      /\ o_success r = true /\ length (a_shape (o_x r)) = 2%nat
      /\ points (a_shape (o_x r)) = points (sf_grid hsurf) /\ (0 < points (sf_grid hsurf))%nat)
  /\ (exists s y1 r, construct hsA = Ret s
      /\ exec (dual_objective (periodic s) hsurf 1 true) (dual_hessian_product (periodic s))
           (one_query (mkArr [4; 3]%nat (fun _ _ => 0))) (reset fresh) = (y1, Ret r)
      /\ o_success r = true /\ length (a_shape (o_jac r)) = 1%nat
      /\ points (a_shape (o_jac r)) = points (sf_grid hsurf)).
Proof.
  split; [reflexivity|]. split; [discriminate|]. split.
  { intros s [<-|[]] (r & E & _). discriminate. }
  destruct hsA_ok as [s H]. split.
  - exists s.
    destruct (C40_primal_value hsA s hsurf 1 (mkArr [4; 3]%nat (fun _ _ => 0)) (reset fresh) H eq_refl eq_refl)
      as (E & G & y' & _ & u & f & A & _).
    do 2 eexists. split; [exact H|]. split; [cbn [exec one_query]; unfold mbind; rewrite A; reflexivity|].
    cbn. repeat split; lia.
  - exists s.
    destruct (proj1 (C41_dual_gradient hsA s hsurf H eq_refl) 1 (mkArr [4; 3]%nat (fun _ _ => 0)) (reset fresh) eq_refl)
      as (E & G & y' & u & A & _ & _ & B & _).
    do 2 eexists. split; [exact H|]. split; [cbn [exec one_query]; unfold mbind; rewrite A; reflexivity|].
    cbn [o_success o_jac snd]. rewrite B. repeat split.
Qed.

(** ** C44 Plastic system updates the topography where it flowed *)

(** The displacement array is at least as large as the topography (larger for
    padded substrates). *)
Definition covers (u : arr) (g : list nat) : Prop :=
  length (a_shape u) = length g /\ (gx g <= nth 0 (a_shape u) 1 /\ gy g <= nth 1 (a_shape u) 1)%nat.

Lemma covered_gap : forall sb sf u off, okgrid (sf_grid sf) -> sb_topo sb = sf_grid sf ->
  covers u (sf_grid sf) -> exists d, compute_gap sb sf u off = Ret (mkArr (sf_grid sf) d)
    /\ same_on (sf_grid sf) d (fun x y => a_val u x y - a_val (heights sf) x y - off).
Proof.
  intros sb sf u off OK T (L & C1 & C2). unfold compute_gap, head_slice. rewrite T, L, Nat.ltb_irrefl.
  cbn [bind]. set (g := sf_grid sf) in *.
  assert (X : map (fun p => Nat.min (fst p) (snd p)) (combine g (a_shape u)) ++ skipn (length g) (a_shape u) = g).
  { rewrite <- L, skipn_all, app_nil_r. destruct OK as [[E|E] _]; unfold gx, gy in *.
    - destruct g as [|n [|? ?]]; try discriminate. destruct (a_shape u) as [|n' [|? ?]]; try discriminate.
      cbn in *. rewrite Nat.min_l by lia. reflexivity.
    - destruct g as [|n [|m [|? ?]]]; try discriminate.
      destruct (a_shape u) as [|n' [|m' [|? ?]]]; try discriminate.
      cbn in *. rewrite !Nat.min_l by lia. reflexivity. }
  rewrite X.
  change (amap (fun z : R => z + off) (heights sf)) with (mkArr g (fun x y => a_val (heights sf) x y + off)).
  destruct (binop_same Rminus g (a_val u) (fun x y => a_val (heights sf) x y + off) OK) as (v & V1 & V2).
  exists v. split; [exact V1|]. intros x y Hg. rewrite (V2 x y Hg). ring.
Qed.

Theorem C44_plastic_success : forall sb sf solver y y' sf' r,
  plastic_minimize_proxy sb sf solver y = (y', sf', Ret r) -> o_success r = true ->
  okgrid (sf_grid sf) -> sb_topo sb = sf_grid sf -> covers (o_x r) (sf_grid sf) ->
  sf_grid sf' = sf_grid sf
  /\ (forall i j, on_grid (sf_grid sf) i j ->
        a_val (heights sf') i j
        = if o_plastic r i j then a_val (o_x r) i j - o_offset r else a_val (heights sf) i j)
  /\ (exists gp, compute_gap sb sf' (o_x r) (o_offset r) = Ret gp
        /\ forall i j, on_grid (sf_grid sf) i j -> o_plastic r i j = true -> a_val gp i j = 0).
Proof.
  intros sb sf solver y y' sf' r E S OK T C. unfold plastic_minimize_proxy in E.
  destruct (minimize_proxy sb (solver (sf_hardness sf * sf_area sf)) y) as [y1 [r1|e]]; [|discriminate].
  destruct (o_success r1) eqn:S1.
  2:{ injection E as _ _ ->. congruence. }
  destruct (compute_gap sb sf (o_x r1) (o_offset r1)) as [gp|e] eqn:Gp; [|discriminate].
  injection E as _ <- ->. cbn [sf_grid]. split; [reflexivity|].
  destruct (covered_gap sb sf (o_x r) (o_offset r) OK T C) as (d & D1 & D2).
  rewrite D1 in Gp. injection Gp as <-. cbn [a_val].
  match goal with |- _ /\ (exists gp, compute_gap sb ?s _ _ = _ /\ _) => set (sf' := s) end.
  assert (HH : forall i j, on_grid (sf_grid sf) i j -> a_val (heights sf') i j
        = if o_plastic r i j then a_val (o_x r) i j - o_offset r else a_val (heights sf) i j).
  { intros i j Hg. unfold sf', heights. cbn [a_val sf_base sf_plastic]. rewrite (D2 i j Hg).
    unfold heights. cbn [a_val]. destruct (o_plastic r i j); lra. }
  split; [exact HH|].
  destruct (covered_gap sb sf' (o_x r) (o_offset r) OK T C) as (d' & D1' & D2').
  exists (mkArr (sf_grid sf') d'). split; [exact D1'|]. intros i j Hg P. cbn [a_val].
  rewrite (D2' i j Hg), (HH i j Hg), P. ring.
Qed.
Print Assumptions C44_plastic_success.

(** The solver gets the hardness as a force; without success nothing flows. *)
Theorem C44_plastic_failure : forall sb sf solver y,
  (forall r, solver (sf_hardness sf * sf_area sf) = Ret r -> o_success r = false) ->
  exists y', plastic_minimize_proxy sb sf solver y = (y', sf, solver (sf_hardness sf * sf_area sf)).
Proof.
  intros sb sf solver y H. unfold plastic_minimize_proxy.
  destruct (C43_failure sb (solver (sf_hardness sf * sf_area sf)) y H) as (y' & E & _).
  rewrite E. destruct (solver (sf_hardness sf * sf_area sf)) as [r|e].
  - rewrite (H r eq_refl). eauto.
  - eauto.
Qed.
Print Assumptions C44_plastic_failure.

(** Over any history of load steps a point that never flows keeps its height,
    and hardness, grid and the elastic part never change. *)
Theorem C44_plastic_history : forall sb solvers sf y i j,
  (forall s h r, In s solvers -> s h = Ret r -> o_plastic r i j = false) ->
  let sf' := snd (plastic_steps sb sf solvers y) in
  a_val (heights sf') i j = a_val (heights sf) i j
  /\ sf_grid sf' = sf_grid sf /\ sf_hardness sf' = sf_hardness sf /\ sf_base sf' = sf_base sf.
Proof.
  intros sb solvers. induction solvers as [|s rest IH]; intros sf y i j H; cbn zeta.
  { repeat split; reflexivity. }
  cbn [plastic_steps].
  assert (ST : forall y' sf' o, plastic_minimize_proxy sb sf s y = (y', sf', o) ->
    a_val (heights sf') i j = a_val (heights sf) i j
    /\ sf_grid sf' = sf_grid sf /\ sf_hardness sf' = sf_hardness sf /\ sf_base sf' = sf_base sf).
  { intros y' sf' o E. unfold plastic_minimize_proxy, minimize_proxy, mbind, upd, lift in E.
    destruct (s (sf_hardness sf * sf_area sf)) as [r|e] eqn:Es.
    2:{ injection E as _ <- _. repeat split; reflexivity. }
    pose proof (H s _ r (or_introl eq_refl) Es) as P.
    destruct (o_success r) eqn:Er.
    2:{ cbn in E. rewrite Er in E. injection E as _ <- _. repeat split; reflexivity. }
    destruct (sb_check sb (o_jac r)) as [u|e].
    2:{ injection E as _ <- _. repeat split; reflexivity. }
    cbn [mret] in E. unfold mret in E. rewrite Er in E.
    destruct (compute_gap sb sf (o_x r) (o_offset r)) as [gp|e].
    - injection E as _ <- _. unfold heights. cbn [sf_grid sf_base sf_plastic sf_hardness a_val]. rewrite P.
      repeat split; try reflexivity. ring.
    - injection E as _ <- _. repeat split; reflexivity. }
  destruct (plastic_minimize_proxy sb sf s y) as [[y' sf'] o] eqn:E.
  destruct (ST _ _ _ eq_refl) as (A1 & A2 & A3 & A4).
  destruct (IH sf' y' i j) as (B1 & B2 & B3 & B4).
  { intros s' h r I. apply H. right. exact I. }
  cbn zeta in B1, B2, B3, B4. rewrite B1, B2, B3, B4. auto.
Qed.
Print Assumptions C44_plastic_history.
Example C44_nonvacuous : exists s, construct hsA = Ret s /\ exists y' sf' r,
  plastic_minimize_proxy (periodic s) hsurf
    (fun h => Ret (mkOres true (mkArr (a_grid hsA) (fun x y => INR y)) (mkArr (a_grid hsA) (fun _ _ => h)) 3
                    (fun x y => Nat.eqb x 2))) fresh = (y', sf', Ret r)
  /\ o_success r = true /\ okgrid (sf_grid hsurf) /\ sb_topo (periodic s) = sf_grid hsurf
  /\ covers (o_x r) (sf_grid hsurf)
  /\ (on_grid (sf_grid hsurf) 2 1 /\ o_plastic r 2%nat 1%nat = true)
  /\ (on_grid (sf_grid hsurf) 1 1 /\ o_plastic r 1%nat 1%nat = false).
Proof.
  destruct hsA_ok as [s H]. exists s. split; [exact H|].
  pose proof (per_grid hsA s H) as OK. destruct (per_shapes hsA s H) as (T & _).
  unfold plastic_minimize_proxy, minimize_proxy, mbind, upd, lift. cbn [o_success]. change (sb_check (periodic s)) with (fun _ : arr => Ret tt).
  unfold mret. cbn [o_success].
  destruct (covered_gap (periodic s) hsurf (mkArr (a_grid hsA) (fun x y => INR y)) 3 OK T) as (d & D1 & _).
  { split; [reflexivity|cbn; lia]. }
  cbn [o_x o_offset]. rewrite D1.
  do 3 eexists. split; [reflexivity|]. split; [reflexivity|]. split; [exact OK|]. split; [exact T|].
  split; [split; [reflexivity|cbn; lia]|]. unfold on_grid. cbn. repeat split; lia.
Qed.

(** ** C45 Optimiser-shape conversion is lossless *)
Theorem C45_round_trip : forall sb u, okgrid (sb_sub sb) -> a_shape u = sb_sub sb ->
  exists v w, shape_minimisation_input sb u = Ret v /\ a_shape v = [points (sb_sub sb)]
    /\ (forall k, entry v k = entry u k)
    /\ shape_minimisation_output sb v = Ret w /\ a_shape w = sb_sub sb
    /\ same_on (sb_sub sb) (a_val w) (a_val u).
Proof.
  intros sb u OK Hu. unfold shape_minimisation_input. rewrite Hu, Nat.eqb_refl.
  exists (ravel u). unfold shape_minimisation_output. cbn [ravel a_shape].
  assert (X : size [size (a_shape u)] = points (sb_sub sb)) by (rewrite Hu; cbn; apply Nat.mul_1_r).
  rewrite X. change (size (sb_sub sb)) with (points (sb_sub sb)). rewrite Nat.eqb_refl.
  assert (Y : size (a_shape (ravel u)) = points (sb_sub sb)) by exact X.
  rewrite (reshape_ok (ravel u) (sb_sub sb) Y).
  eexists. split; [reflexivity|]. split; [rewrite Hu; reflexivity|]. split; [intros k; apply entry_ravel|].
  split; [reflexivity|]. split; [reflexivity|]. intros x y [Hx Hy]. cbn [a_val]. unfold unflat.
  rewrite entry_ravel. destruct u as [g u]. cbn in Hu. subst g. apply entry_grid. exact Hy.
Qed.
Print Assumptions C45_round_trip.

Theorem C45_wrong_size_raises : forall sb u, points (a_shape u) <> points (sb_sub sb) ->
  shape_minimisation_input sb u = Exc IncompatibleResolutionErr
  /\ shape_minimisation_output sb u = Exc IncompatibleResolutionErr.
Proof.
  intros sb u N. unfold shape_minimisation_input, shape_minimisation_output.
  change (size (sb_sub sb)) with (points (sb_sub sb)). change (size (a_shape u)) with (points (a_shape u)).
  destruct (Nat.eqb_spec (points (sb_sub sb)) (points (a_shape u))); [congruence|]. split; reflexivity.
Qed.
Print Assumptions C45_wrong_size_raises.

(** The objectives only look at the entries in C order: the flattened array
    gives what the field gives. *)
Theorem C45_objective_of_flat : forall sb sf off gr u y,
  objective sb sf off gr (ravel u) y = objective sb sf off gr u y
  /\ primal_objective sb sf off gr (ravel u) y = primal_objective sb sf off gr u y
  /\ dual_objective sb sf off gr (ravel u) y = dual_objective sb sf off gr u y.
Proof.
  intros. assert (X : forall g, reshape (ravel u) g = reshape u g).
  { intros g. unfold reshape. cbn [ravel a_shape].
    replace (size [size (a_shape u)]) with (size (a_shape u)) by (cbn; symmetry; apply Nat.mul_1_r).
    destruct (Nat.eqb _ _); [|reflexivity]. do 2 f_equal.
    apply FunctionalExtensionality.functional_extensionality. intros x.
    apply FunctionalExtensionality.functional_extensionality. intros z.
    rewrite !flat_entry. apply entry_ravel. }
  unfold objective, primal_objective, dual_objective. rewrite !X. repeat split.
Qed.
Print Assumptions C45_objective_of_flat.
Example C45_nonvacuous : exists s, construct hsA = Ret s /\ okgrid (sb_sub (periodic s))
  /\ sb_sub (periodic s) = [4; 3]%nat /\ points [5%nat] <> points (sb_sub (periodic s)).
Proof.
  destruct hsA_ok as [s H]. exists s. destruct (per_shapes hsA s H) as (_ & U & _). rewrite U.
  split; [exact H|]. split; [exact (per_grid hsA s H)|]. split; [reflexivity|discriminate].
Qed.

(** ** C47 Energy bookkeeping of evaluate *)
Theorem C47_evaluate : forall a s sf u off forces y, construct a = Ret s -> sf_grid sf = a_grid a ->
  exists E f d y', evaluate_sys (periodic s) sf (mkArr (a_grid a) u) off true forces y
      = (y', Ret (Some E, if forces then Some f else None))
    /\ evaluate s (mkArr (a_grid a) u) true true = Ret (Some E, Some f)
    /\ y_energy y' = Some E /\ y_senergy y' = Some E
    /\ y_force y' = (if forces then Some f else None) /\ y_sforce y' = y_force y'
    /\ y_gap y' = Some (mkArr (a_grid a) d)
    /\ same_on (a_grid a) d (fun i j => u i j - a_val (heights sf) i j - off)
    /\ y_disp y' = y_disp y.
Proof.
  intros a s sf u off forces y H F. destruct (per_shapes a s H) as (T & U & _).
  pose proof (per_grid a s H) as OK.
  destruct (gap_value (periodic s) sf (a_grid a) _ OK T U F (per_force a s H) (per_quad a s H) u off) as (d & D1 & D2).
  destruct (qo_eval _ _ _ (per_quad a s H) u) as (v & V1 & _).
  pose proof (qo_energy _ _ _ (per_quad a s H) u) as V2.
  unfold evaluate_sys, mbind, lift, upd. rewrite D1.
  destruct forces; rewrite ?V1, ?V2; cbn [fst snd]; do 4 eexists; (split; [reflexivity|]);
    (split; [exact V1|]); repeat (split; [reflexivity|]); split; [exact D2|reflexivity|exact D2|reflexivity].
Qed.
Print Assumptions C47_evaluate.

(** The objective of the flattened displacement: energy, and minus the force
    as gradient. *)
Theorem C47_objective : forall a s sf x off y, construct a = Ret s -> sf_grid sf = a_grid a ->
  points (a_shape x) = points (a_grid a) ->
  exists E f gr y' y'', objective (periodic s) sf off true x y = (y', Ret (Some E, Some gr))
    /\ objective (periodic s) sf off false x y = (y'', Ret (Some E, None))
    /\ evaluate s (mkArr (a_grid a) (fun i j => entry x (i * gy (a_grid a) + j)%nat)) true true
       = Ret (Some E, Some f)
    /\ a_shape gr = [points (a_grid a)]
    /\ (forall k, (k < points (a_grid a))%nat -> entry gr k = - entry f k).
Proof.
  intros a s sf x off y H F N. destruct (per_shapes a s H) as (T & U & _).
  pose proof (per_grid a s H) as OK.
  destruct (objective_value (periodic s) sf _ _ OK T U F (per_force a s H) (per_quad a s H) off true x y N) as (v & y' & A1 & A2 & A3).
  destruct (objective_value (periodic s) sf _ _ OK T U F (per_force a s H) (per_quad a s H) off false x y N) as (v' & y'' & B1 & _).
  destruct (qo_eval _ _ _ (per_quad a s H) (unflat (a_grid a) x)) as (w & W1 & W2).
  do 5 eexists. split; [exact A1|]. split; [exact B1|]. split; [exact W1|]. split; [exact A2|].
  intros k Hk. rewrite A3 by exact Hk. rewrite !(entry_mk _ _ k OK).
  rewrite W2 by (apply on_grid_k; assumption). reflexivity.
Qed.
Print Assumptions C47_objective.

(** The lower bounds handed to an optimiser express a non-negative gap on the
    topography and nothing outside it. *)
Theorem C47_lower_bounds : forall sb sf u off d i j, sb_topo sb = sf_grid sf -> okgrid (sf_grid sf) ->
  compute_gap sb sf u off = Ret d -> covers u (sf_grid sf) ->
  (on_grid (sf_grid sf) i j -> exists b, lbounds_from_heights sb sf off i j = Some b
      /\ (b <= a_val u i j <-> 0 <= a_val d i j))
  /\ (~ on_grid (sf_grid sf) i j -> lbounds_from_heights sb sf off i j = None).
Proof.
  intros sb sf u off d i j T OK G C.
  destruct (covered_gap sb sf u off OK T C) as (v & V1 & V2). rewrite V1 in G. injection G as <-.
  cbn [a_val]. unfold lbounds_from_heights, on_grid. rewrite T. fold (gx (sf_grid sf)) (gy (sf_grid sf)).
  destruct (Nat.ltb_spec i (gx (sf_grid sf))); destruct (Nat.ltb_spec j (gy (sf_grid sf))); cbn [andb].
  - split; [|tauto]. intros Hg. eexists. split; [reflexivity|]. rewrite (V2 i j Hg). lra.
  - split; [lia|reflexivity].
  - split; [lia|reflexivity].
  - split; [lia|reflexivity].
Qed.
Print Assumptions C47_lower_bounds.
Example C47_nonvacuous :
  (exists s, construct hsA = Ret s /\ sf_grid hsurf = a_grid hsA /\ sb_topo (periodic s) = sf_grid hsurf
    /\ okgrid (sf_grid hsurf))
  /\ points [12%nat] = points (a_grid hsA)
  /\ (exists s, free_construct fhA = Ret s /\ sb_topo (free s) = sf_grid fsurf /\ okgrid (sf_grid fsurf)
      /\ covers (mkArr [6; 4]%nat (fun _ _ => 0)) (sf_grid fsurf)).
Proof.
  destruct hsA_ok as [s H]. split; [|split; [reflexivity|]].
  - exists s. split; [exact H|]. split; [reflexivity|]. split; [apply (per_shapes hsA s H)|exact (per_grid hsA s H)].
  - destruct (proj1 fh_ok) as [s' H']. exists s'.
    assert (Z : cell_size (fa_sizes fhA) 0 <> 0 /\ cell_size (fa_sizes fhA) 1 <> 0) by (cbn; lra).
    pose proof (free_direct fhA s' H' Z) as D. split; [exact H'|].
    split; [exact (topo_shape_eq _ _ _ _ D)|]. split; [exact (direct_okgrid _ _ _ _ D)|].
    split; [reflexivity|cbn; lia].
Qed.
