(** * Concrete half-spaces used to show the theorems are not vacuous *)

From Coq Require Import Reals ZArith Lia Lra List Arith Bool.
From Verif Require Import Py FFT_Base HalfSpace_Model HalfSpace_Spec
  HalfSpace_Proofs HalfSpace_Results HalfSpace_Results2 HalfSpace_Results3.
Import ListNotations.
Local Open Scope R_scope.

Definition hsA := mkArgs [4; 3]%nat 2 [2; 5] None None (1/4) None.
Definition hsB := mkArgs [4; 3]%nat 2 [2; 5] (Some 0) None (1/4) (Some [4; 3]%nat).
Definition hsC := mkArgs [5]%nat 2 [2] None None (1/4) None.
Definition hsD := mkArgs [4; 3]%nat 2 [2] None (Some 3) (1/4) None.
Definition hsE := mkArgs [5]%nat 2 [2] (Some 7) None (1/4) None.

Lemma point_area_eq : forall a s, construct a = Ret s ->
  area_per_pt (s_hs s) = point_area (a_grid a) (a_sizes a).
Proof.
  intros a s H. destruct (construct_inv a s H) as [Hn _].
  rewrite (area_eq _ _ Hn). destruct (sizes_eq a s H) as [E1 [E2 _]].
  rewrite (nx_gx a s H), (ny_gy a s H), E1, E2. unfold point_area, npts.
  destruct (Nat.eqb _ 1); f_equal; ring.
Qed.

Lemma construct_2d_ok : forall a n m, a_grid a = [n; m] -> (2 <= n)%nat -> (2 <= m)%nat ->
  (a_q0 a = None \/ a_thick a = None) -> a_sizes a <> [] -> 1 - a_poisson a ^ 2 <> 0 ->
  (forall g, a_engine a = Some g -> g = a_grid a) -> exists s, construct a = Ret s.
Proof.
  intros a n m Eg Hn Hm Hq Hs Hp He.
  destruct (proj2 (new_ok_iff a)) as [h Hh].
  { rewrite Eg. split; [right; reflexivity|]. split; [assumption|]. split; [assumption|].
    split; [|split; [assumption|]].
    - intros k [K|[K|[]]]; lia.
    - intros g G. rewrite <- Eg. apply He. assumption. }
  destruct (zero_thick_q0 _ _ Hh) as [_ [_ [_ [Egr _]]]].
  unfold construct, construct_on. rewrite Hh. cbn [bind].
  assert (D : dim h = 2%nat) by (unfold dim; rewrite Egr, Eg; reflexivity).
  destruct (greens_index_2d h (0,0)%nat (fourier_pts (a_grid a)) D) as [_ I].
  destruct (compute_greens_function h (0, 0)%nat (fourier_pts (a_grid a))) as [gf|e].
  - cbn [bind]. eexists. reflexivity.
  - destruct I as [I _]. specialize (I eq_refl).
    destruct I as [_ [_ [_ [_ [_ I]]]]]. rewrite Eg in I.
    assert (n / 2 >= 1)%nat by (apply Nat.div_le_lower_bound; lia).
    cbn [fourier_pts nth fst snd] in I. lia.
Qed.

Lemma construct_1d_ok : forall a n, a_grid a = [n] -> (2 <= n)%nat ->
  (a_q0 a = None \/ a_thick a = None) -> a_q0 a <> Some 0 ->
  a_sizes a <> [] -> 1 - a_poisson a ^ 2 <> 0 ->
  (forall g, a_engine a = Some g -> g = a_grid a) -> exists s, construct a = Ret s.
Proof.
  intros a n Eg Hn Hq Hq0 Hs Hp He.
  destruct (proj2 (new_ok_iff a)) as [h Hh].
  { rewrite Eg. split; [left; reflexivity|]. split; [assumption|]. split; [assumption|].
    split; [|split; [assumption|]].
    - intros k [K|[]]; lia.
    - intros g G. rewrite <- Eg. apply He. assumption. }
  destruct (zero_thick_q0 _ _ Hh) as [Eq [_ [_ [Egr _]]]].
  unfold construct, construct_on. rewrite Hh. cbn [bind].
  assert (n / 2 >= 1)%nat by (apply Nat.div_le_lower_bound; lia).
  unfold compute_greens_function, dim. rewrite Egr, Eg. cbn [length Nat.eqb fourier_pts nth fst].
  unfold greens_1d. rewrite Eq.
  destruct (Nat.ltb_spec (n / 2 + 1) 2); [lia|]. destruct (Nat.ltb_spec (n / 2 + 1) 1); [lia|].
  destruct (a_q0 a) as [q|]; cbn [bind andb Nat.eqb].
  - destruct (Req_bool_spec q 0); [congruence|]. cbn [bind]. eexists. reflexivity.
  - eexists. reflexivity.
Qed.

Ltac hs_side := cbn; try lra; try discriminate; try (intros ? E; inversion E; reflexivity);
  try (left; reflexivity); try (right; reflexivity); try lia; try reflexivity.
Ltac hs_pos := repeat split; cbn in *; intros; cbn in *; try lra;
  repeat match goal with
  | H : _ \/ _ |- _ => destruct H
  | H : False |- _ => contradiction
  | H : Some _ = Some _ |- _ => injection H as H
  | H : None = Some _ |- _ => discriminate
  end; subst; try lra; try (split; lra).

Lemma hsA_ok : exists s, construct hsA = Ret s.
Proof. apply (construct_2d_ok hsA 4 3); hs_side. Qed.
Lemma hsB_ok : exists s, construct hsB = Ret s.
Proof. apply (construct_2d_ok hsB 4 3); hs_side. Qed.
Lemma hsC_ok : exists s, construct hsC = Ret s.
Proof. apply (construct_1d_ok hsC 5); hs_side. Qed.
Lemma hsD_ok : exists s, construct hsD = Ret s.
Proof. apply (construct_2d_ok hsD 4 3); hs_side. Qed.
Lemma hsE_ok : exists s, construct hsE = Ret s.
Proof. apply (construct_1d_ok hsE 5); hs_side. intro E. injection E as E. lra. Qed.

Lemma hsA_pos : pos_args hsA. Proof. hs_pos. Qed.
Lemma hsB_pos : pos_args hsB. Proof. hs_pos. Qed.
Lemma hsC_pos : pos_args hsC. Proof. hs_pos. Qed.
Lemma hsD_pos : pos_args hsD. Proof. hs_pos. Qed.
Lemma hsE_pos : pos_args hsE. Proof. hs_pos. Qed.
