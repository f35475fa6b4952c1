(** * Equilibrium and boundary tractions of the Hertz stress fields *)

From Coq Require Import Reals Lra Lia Psatz.
From Coquelicot Require Import Coquelicot.
From Verif Require Import Hertz_Model Calc Hertz_Proofs Hertz_Surface Hertz_Interior Hertz_Equilibrium.
Local Open Scope R_scope.

(** ** The equilibrium equations *)
Definition in_equilibrium (sigma : R -> R -> R -> cart) (x y z : R) : Prop :=
  (exists a b c, is_derive (fun t => t_xx (sigma t y z)) x a /\ is_derive (fun t => t_xy (sigma x t z)) y b
     /\ is_derive (fun t => t_xz (sigma x y t)) z c /\ a + b + c = 0)
  /\ (exists a b c, is_derive (fun t => t_xy (sigma t y z)) x a /\ is_derive (fun t => t_yy (sigma x t z)) y b
     /\ is_derive (fun t => t_yz (sigma x y t)) z c /\ a + b + c = 0)
  /\ (exists a b c, is_derive (fun t => t_xz (sigma t y z)) x a /\ is_derive (fun t => t_yz (sigma x t z)) y b
     /\ is_derive (fun t => t_zz (sigma x y t)) z c /\ a + b + c = 0).

Section Equilibrium.
  Variables (sigma : R -> R -> R -> cart) (red : R -> R -> R -> R -> cart).
  Hypothesis sigma_red : forall x y z, 0 < x ^ 2 + y ^ 2 -> 0 < z ->
    sigma x y z = red x y (hM (x ^ 2 + y ^ 2) z) (hN (x ^ 2 + y ^ 2) z).
  Lemma ext_deriv : forall (g : cart -> R) x y z, 0 < x ^ 2 + y ^ 2 -> 0 < z ->
    (forall l, is_derive (fun t => g (red t y (hM (t ^ 2 + y ^ 2) z) (hN (t ^ 2 + y ^ 2) z))) x l ->
       is_derive (fun t => g (sigma t y z)) x l)
    /\ (forall l, is_derive (fun t => g (red x t (hM (x ^ 2 + t ^ 2) z) (hN (x ^ 2 + t ^ 2) z))) y l ->
       is_derive (fun t => g (sigma x t z)) y l)
    /\ (forall l, is_derive (fun t => g (red x y (hM (x ^ 2 + y ^ 2) t) (hN (x ^ 2 + y ^ 2) t))) z l ->
       is_derive (fun t => g (sigma x y t)) z l).
  Proof.
    intros g x y z Hq Hz. split; [|split]; intros l; apply is_derive_ext_loc.
    - apply (filter_imp (fun t => 0 < t ^ 2 + y ^ 2)); [|apply loc_x, Hq].
      intros t Ht. rewrite sigma_red by assumption. reflexivity.
    - apply (filter_imp (fun t => 0 < x ^ 2 + t ^ 2)); [|apply loc_y, Hq].
      intros t Ht. rewrite sigma_red by assumption. reflexivity.
    - apply (filter_imp (fun t => 0 < t)); [|apply loc_z, Hz].
      intros t Ht. rewrite sigma_red by assumption. reflexivity.
  Qed.
End Equilibrium.

Lemma normal_equilibrium : forall nu x y z, 0 < x ^ 2 + y ^ 2 -> 0 < z ->
  in_equilibrium (stress_Cartesian1 nu) x y z.
Proof.
  intros nu x y z Hq Hz.
  pose proof (ext_deriv (stress_Cartesian1 nu) (nor nu)) as X.
  specialize (X ltac:(intros; apply normal_nor; lra)).
  set (M := hM (x ^ 2 + y ^ 2) z). set (N := hN (x ^ 2 + y ^ 2) z).
  pose proof (S_MN (x ^ 2 + y ^ 2) z) as ES. fold M N in ES.
  pose proof (dM_x x y z Hz) as D1. pose proof (dN_x x y z Hz) as D2.
  pose proof (dM_y x y z Hz) as D3. pose proof (dN_y x y z Hz) as D4.
  pose proof (dM_z (x ^ 2 + y ^ 2) z Hz) as D5. pose proof (dN_z (x ^ 2 + y ^ 2) z Hz) as D6.
  fold M N in D1, D2, D3, D4, D5, D6. rewrite ES in D1, D2, D3, D4, D5, D6.
  pose proof (HMp (x ^ 2 + y ^ 2) z Hz) as HM. pose proof (HNp (x ^ 2 + y ^ 2) z Hz) as HN.
  pose proof (N_lt1 (x ^ 2 + y ^ 2) z ltac:(lra) ltac:(lra) Hq) as HN1.
  pose proof (q_MN (x ^ 2 + y ^ 2) z ltac:(lra)) as Eq.
  fold M in HM. fold N in HN, HN1. fold M N in Eq.
  unfold in_equilibrium. split; [|split].
  - destruct (id_nor_x nu x y M N (fun t => hM (t ^ 2 + y ^ 2) z) (fun t => hN (t ^ 2 + y ^ 2) z)
      (fun t => hM (x ^ 2 + t ^ 2) z) (fun t => hN (x ^ 2 + t ^ 2) z)
      (fun t => hM (x ^ 2 + y ^ 2) t) (fun t => hN (x ^ 2 + y ^ 2) t) z) as (a & b & c & A & B & C0 & E);
      try assumption; try reflexivity.
    exists a, b, c. split; [|split; [|split]]; [| | |exact E].
    + exact (proj1 (X t_xx x y z Hq Hz) a A).
    + exact (proj1 (proj2 (X t_xy x y z Hq Hz)) b B).
    + exact (proj2 (proj2 (X t_xz x y z Hq Hz)) c C0).
  - destruct (id_nor_y nu x y M N (fun t => hM (t ^ 2 + y ^ 2) z) (fun t => hN (t ^ 2 + y ^ 2) z)
      (fun t => hM (x ^ 2 + t ^ 2) z) (fun t => hN (x ^ 2 + t ^ 2) z)
      (fun t => hM (x ^ 2 + y ^ 2) t) (fun t => hN (x ^ 2 + y ^ 2) t) z) as (a & b & c & A & B & C0 & E);
      try assumption; try reflexivity.
    exists a, b, c. split; [|split; [|split]]; [| | |exact E].
    + exact (proj1 (X t_xy x y z Hq Hz) a A).
    + exact (proj1 (proj2 (X t_yy x y z Hq Hz)) b B).
    + exact (proj2 (proj2 (X t_yz x y z Hq Hz)) c C0).
  - destruct (id_nor_z nu x y M N (fun t => hM (t ^ 2 + y ^ 2) z) (fun t => hN (t ^ 2 + y ^ 2) z)
      (fun t => hM (x ^ 2 + t ^ 2) z) (fun t => hN (x ^ 2 + t ^ 2) z)
      (fun t => hM (x ^ 2 + y ^ 2) t) (fun t => hN (x ^ 2 + y ^ 2) t) z) as (a & b & c & A & B & C0 & E);
      try assumption; try reflexivity.
    exists a, b, c. split; [|split; [|split]]; [| | |exact E].
    + exact (proj1 (X t_xz x y z Hq Hz) a A).
    + exact (proj1 (proj2 (X t_yz x y z Hq Hz)) b B).
    + exact (proj2 (proj2 (X t_zz x y z Hq Hz)) c C0).
Qed.

Lemma tangential_equilibrium : forall nu x y z, 0 < x ^ 2 + y ^ 2 -> 0 < z ->
  in_equilibrium (stress_for_tangential_loading1 nu) x y z.
Proof.
  intros nu x y z Hq Hz.
  pose proof (ext_deriv (stress_for_tangential_loading1 nu) (tang nu)) as X.
  specialize (X ltac:(intros; apply tang_tang; lra)).
  set (M := hM (x ^ 2 + y ^ 2) z). set (N := hN (x ^ 2 + y ^ 2) z).
  pose proof (S_MN (x ^ 2 + y ^ 2) z) as ES. fold M N in ES.
  pose proof (dM_x x y z Hz) as D1. pose proof (dN_x x y z Hz) as D2.
  pose proof (dM_y x y z Hz) as D3. pose proof (dN_y x y z Hz) as D4.
  pose proof (dM_z (x ^ 2 + y ^ 2) z Hz) as D5. pose proof (dN_z (x ^ 2 + y ^ 2) z Hz) as D6.
  fold M N in D1, D2, D3, D4, D5, D6. rewrite ES in D1, D2, D3, D4, D5, D6.
  pose proof (HMp (x ^ 2 + y ^ 2) z Hz) as HM. pose proof (HNp (x ^ 2 + y ^ 2) z Hz) as HN.
  pose proof (N_lt1 (x ^ 2 + y ^ 2) z ltac:(lra) ltac:(lra) Hq) as HN1.
  pose proof (q_MN (x ^ 2 + y ^ 2) z ltac:(lra)) as Eq.
  fold M in HM. fold N in HN, HN1. fold M N in Eq.
  unfold in_equilibrium. split; [|split].
  - destruct (id_tang_x nu x y M N (fun t => hM (t ^ 2 + y ^ 2) z) (fun t => hN (t ^ 2 + y ^ 2) z)
      (fun t => hM (x ^ 2 + t ^ 2) z) (fun t => hN (x ^ 2 + t ^ 2) z)
      (fun t => hM (x ^ 2 + y ^ 2) t) (fun t => hN (x ^ 2 + y ^ 2) t) z) as (a & b & c & A & B & C0 & E);
      try assumption; try reflexivity.
    exists a, b, c. split; [|split; [|split]]; [| | |exact E].
    + exact (proj1 (X t_xx x y z Hq Hz) a A).
    + exact (proj1 (proj2 (X t_xy x y z Hq Hz)) b B).
    + exact (proj2 (proj2 (X t_xz x y z Hq Hz)) c C0).
  - destruct (id_tang_y nu x y M N (fun t => hM (t ^ 2 + y ^ 2) z) (fun t => hN (t ^ 2 + y ^ 2) z)
      (fun t => hM (x ^ 2 + t ^ 2) z) (fun t => hN (x ^ 2 + t ^ 2) z)
      (fun t => hM (x ^ 2 + y ^ 2) t) (fun t => hN (x ^ 2 + y ^ 2) t) z) as (a & b & c & A & B & C0 & E);
      try assumption; try reflexivity.
    exists a, b, c. split; [|split; [|split]]; [| | |exact E].
    + exact (proj1 (X t_xy x y z Hq Hz) a A).
    + exact (proj1 (proj2 (X t_yy x y z Hq Hz)) b B).
    + exact (proj2 (proj2 (X t_yz x y z Hq Hz)) c C0).
  - destruct (id_tang_z nu x y M N (fun t => hM (t ^ 2 + y ^ 2) z) (fun t => hN (t ^ 2 + y ^ 2) z)
      (fun t => hM (x ^ 2 + t ^ 2) z) (fun t => hN (x ^ 2 + t ^ 2) z)
      (fun t => hM (x ^ 2 + y ^ 2) t) (fun t => hN (x ^ 2 + y ^ 2) t) z) as (a & b & c & A & B & C0 & E);
      try assumption; try reflexivity.
    exists a, b, c. split; [|split; [|split]]; [| | |exact E].
    + exact (proj1 (X t_xz x y z Hq Hz) a A).
    + exact (proj1 (proj2 (X t_yz x y z Hq Hz)) b B).
    + exact (proj2 (proj2 (X t_zz x y z Hq Hz)) c C0).
Qed.
