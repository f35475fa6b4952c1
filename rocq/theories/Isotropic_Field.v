(** * The elastic field behind the isotropic surface Green's function *)

From Coq Require Import Reals Lra Lia Psatz FunctionalExtensionality.
From Coquelicot Require Import Coquelicot.
From Verif Require Import Py Calc Isotropic_Model Isotropic_Proofs Elasticity_Spec.
From Coq Require Import List.
Local Open Scope R_scope.

Section Fam.
  Variables qx qy q : R.
  (** Waves whose amplitude is [(A + z B) exp(-q z)]. *)
  Definition Fam (A B : C) : field3 := fun x y z =>
    exp (- q * z) * ((fst A + z * fst B) * cos (qx * x + qy * y) - (snd A + z * snd B) * sin (qx * x + qy * y)).
  Definition ix (k : R) (A : C) : C := (- k * snd A, k * fst A).
  Definition zz (A B : C) : C := (fst B - q * fst A, snd B - q * snd A).
  Definition zb (B : C) : C := (- q * fst B, - q * snd B).

  Lemma Fam_dx : forall A B x y z, is_derive (fun t => Fam A B t y z) x (Fam (ix qx A) (ix qx B) x y z).
  Proof. intros. unfold Fam, ix. auto_derive; [trivial|]. cbn [fst snd]. ring. Qed.
  Lemma Fam_dy : forall A B x y z, is_derive (fun t => Fam A B x t z) y (Fam (ix qy A) (ix qy B) x y z).
  Proof. intros. unfold Fam, ix. auto_derive; [trivial|]. cbn [fst snd]. ring. Qed.
  Lemma Fam_dz : forall A B x y z, is_derive (fun t => Fam A B x y t) z (Fam (zz A B) (zb B) x y z).
  Proof. intros. unfold Fam, zz, zb. auto_derive; [trivial|]. cbn [fst snd]. ring. Qed.
  Lemma Fam_diff : forall A B, differentiable (Fam A B).
  Proof.
    intros A B x y z. split; [eexists; apply Fam_dx|]. split; [eexists; apply Fam_dy|eexists; apply Fam_dz].
  Qed.
  Lemma pd0 : forall A B, pd 0 (Fam A B) = Fam (ix qx A) (ix qx B).
  Proof. intros. do 3 (apply functional_extensionality; intro). apply is_derive_unique, Fam_dx. Qed.
  Lemma pd1 : forall A B, pd 1 (Fam A B) = Fam (ix qy A) (ix qy B).
  Proof. intros. do 3 (apply functional_extensionality; intro). apply is_derive_unique, Fam_dy. Qed.
  Lemma pd2 : forall A B, pd 2 (Fam A B) = Fam (zz A B) (zb B).
  Proof. intros. do 3 (apply functional_extensionality; intro). apply is_derive_unique, Fam_dz. Qed.

  Definition csum (a b : C) : C := (fst a + fst b, snd a + snd b).
  Definition cscal (k : R) (a : C) : C := (k * fst a, k * snd a).

  Lemma Fam_0 : forall x y z, Fam (0, 0) (0, 0) x y z = 0.
  Proof. intros. unfold Fam. cbn [fst snd]. ring. Qed.

  Variables a0 a1 a2 b0 b1 b2 : C.
  Definition fld (i : nat) : field3 := match i with 0%nat => Fam a0 b0 | 1%nat => Fam a1 b1 | _ => Fam a2 b2 end.
  Definition ai (i : nat) : C := match i with 0%nat => a0 | 1%nat => a1 | _ => a2 end.
  Definition bi (i : nat) : C := match i with 0%nat => b0 | 1%nat => b1 | _ => b2 end.
  (** Amplitudes of the partial derivatives. *)
  Definition da (i : nat) (A B : C) : C := match i with 0%nat => ix qx A | 1%nat => ix qy A | _ => zz A B end.
  Definition db (i : nat) (B : C) : C := match i with 0%nat => ix qx B | 1%nat => ix qy B | _ => zb B end.
  Lemma pdi : forall i A B, (i < 3)%nat -> pd i (Fam A B) = Fam (da i A B) (db i B).
  Proof. intros i A B H. destruct (lt3 i H) as [E|[E|E]]; subst; [apply pd0|apply pd1|apply pd2]. Qed.

  Variables lam mu : R.
  Definition ea (i j : nat) : C := csum (da i (ai j) (bi j)) (da j (ai i) (bi i)).
  Definition eb (i j : nat) : C := csum (db i (bi j)) (db j (bi i)).
  Definition sa (i j : nat) : C :=
    if Nat.eqb i j then csum (cscal lam (csum (csum (da 0 a0 b0) (da 1 a1 b1)) (da 2 a2 b2))) (cscal mu (ea i j))
    else cscal mu (ea i j).
  Definition sb (i j : nat) : C :=
    if Nat.eqb i j then csum (cscal lam (csum (csum (db 0 b0) (db 1 b1)) (db 2 b2))) (cscal mu (eb i j))
    else cscal mu (eb i j).
  Lemma fld_eq : forall i, (i < 3)%nat -> fld i = Fam (ai i) (bi i).
  Proof. intros i H. destruct (lt3 i H) as [E|[E|E]]; subst; reflexivity. Qed.
  Lemma stress_fam : forall i j, (i < 3)%nat -> (j < 3)%nat -> stress lam mu fld i j = Fam (sa i j) (sb i j).
  Proof.
    intros i j Hi Hj. do 3 (apply functional_extensionality; intro). unfold stress.
    rewrite (fld_eq i Hi), (fld_eq j Hj), !pdi by lia. cbn [fld]. rewrite !pdi by lia. unfold sa, sb.
    destruct (Nat.eqb i j); unfold Fam, csum, cscal, ea, eb; cbn [fst snd]; unfold csum; cbn [fst snd]; ring.
  Qed.
  Lemma fam_limit : forall A B x y, 0 < q -> is_lim (fun z => Fam A B x y z) p_infty 0.
  Proof.
    intros A B x y Hq. set (c := cos (qx * x + qy * y)). set (s := sin (qx * x + qy * y)).
    set (k0 := fst A * c - snd A * s). set (k1 := fst B * c - snd B * s).
    apply (is_lim_ext (fun z => k0 * exp (- (q * z)) + k1 / q * (- (- (q * z) * exp (- (q * z)))))).
    { intros z. unfold Fam, k0, k1. fold c s. replace (- q * z) with (- (q * z)) by ring. field. lra. }
    assert (L : is_lim (fun z => - (q * z)) p_infty m_infty).
    { evar_last; [apply is_lim_opp; apply is_lim_scal_l; apply is_lim_id|]. cbn. destruct (Rle_dec 0 q) as [H|H]; [|lra].
      destruct (Rle_lt_or_eq_dec 0 q H); [reflexivity|lra]. }
    replace 0 with (k0 * 0 + k1 / q * (- 0)) by ring.
    apply (is_lim_plus' (fun z => k0 * exp (- (q * z))) (fun z => k1 / q * (- (- (q * z) * exp (- (q * z))))) p_infty (k0 * 0) (k1 / q * - 0)).
    - apply (is_lim_scal_l (fun z => exp (- (q * z))) k0 p_infty (Finite 0)).
      apply (is_lim_comp exp (fun z => - (q * z)) p_infty 0 m_infty); [apply is_lim_exp_m|exact L|].
      exists 0. intros z _. discriminate.
    - apply (is_lim_scal_l (fun z => - (- (q * z) * exp (- (q * z)))) (k1 / q) p_infty (Finite (- 0))).
      apply (is_lim_opp (fun z => - (q * z) * exp (- (q * z))) p_infty (Finite 0)).
      apply (is_lim_comp (fun t => t * exp t) (fun z => - (q * z)) p_infty 0 m_infty); [apply is_lim_mul_exp_m|exact L|].
      exists 0. intros z _. discriminate.
  Qed.
End Fam.

Section Solution.
  Variables mu nu qx qy : R.
  Hypothesis Hmu : 0 < mu.
  Hypothesis Hq : qx <> 0 \/ qy <> 0.
  Hypothesis Hnu1 : nu <> 1 / 2.
  Hypothesis Hnu2 : nu <> 3 / 4.
  Let q := sqrt (qx ^ 2 + qy ^ 2).
  Let lam := 2 * mu * nu / (1 - 2 * nu).
  Let G := iso_greens mu nu qx qy.
  Variable f : nat -> C.
  Definition surf (i : nat) : C := (at_ G i 0 * f 0%nat + at_ G i 1 * f 1%nat + at_ G i 2 * f 2%nat)%C.
  Definition ss : C := csum (csum (cscal qx (surf 0)) (cscal qy (surf 1))) (ix q (surf 2)).
  Definition bb (i : nat) : C :=
    match i with
    | 0%nat => cscal (- qx / q / (3 - 4 * nu)) ss
    | 1%nat => cscal (- qy / q / (3 - 4 * nu)) ss
    | _ => cscal (- / (3 - 4 * nu)) (ix 1 ss)
    end.
  Definition usol : nat -> field3 := fld qx qy q (surf 0) (surf 1) (surf 2) (bb 0) (bb 1) (bb 2).

  Lemma surf0 : surf 0 =
    ((q ^ 2 - nu * qx ^ 2) / (mu * q ^ 3) * fst (f 0%nat) + (- nu * qx * qy / (mu * q ^ 3)) * fst (f 1%nat)
       - (1 - 2 * nu) * qx / (2 * mu * q ^ 2) * snd (f 2%nat),
     (q ^ 2 - nu * qx ^ 2) / (mu * q ^ 3) * snd (f 0%nat) + (- nu * qx * qy / (mu * q ^ 3)) * snd (f 1%nat)
       + (1 - 2 * nu) * qx / (2 * mu * q ^ 2) * fst (f 2%nat)).
  Proof.
    unfold surf, G. rewrite (G00 mu nu qx qy), (G01 mu nu qx qy), (G02 mu nu qx qy) by (lra || assumption). fold q.
    apply injective_projections; unfold Cplus, Cmult; cbn [fst snd]; ring.
  Qed.
  Lemma surf1 : surf 1 =
    ((- nu * qx * qy / (mu * q ^ 3)) * fst (f 0%nat) + (q ^ 2 - nu * qy ^ 2) / (mu * q ^ 3) * fst (f 1%nat)
       - (1 - 2 * nu) * qy / (2 * mu * q ^ 2) * snd (f 2%nat),
     (- nu * qx * qy / (mu * q ^ 3)) * snd (f 0%nat) + (q ^ 2 - nu * qy ^ 2) / (mu * q ^ 3) * snd (f 1%nat)
       + (1 - 2 * nu) * qy / (2 * mu * q ^ 2) * fst (f 2%nat)).
  Proof.
    unfold surf, G. rewrite (G10 mu nu qx qy), (G11 mu nu qx qy), (G12 mu nu qx qy) by (lra || assumption). fold q.
    apply injective_projections; unfold Cplus, Cmult; cbn [fst snd]; ring.
  Qed.
  Lemma surf2 : surf 2 =
    ((1 - 2 * nu) * qx / (2 * mu * q ^ 2) * snd (f 0%nat) + (1 - 2 * nu) * qy / (2 * mu * q ^ 2) * snd (f 1%nat)
       + (1 - nu) / (mu * q) * fst (f 2%nat),
     - (1 - 2 * nu) * qx / (2 * mu * q ^ 2) * fst (f 0%nat) - (1 - 2 * nu) * qy / (2 * mu * q ^ 2) * fst (f 1%nat)
       + (1 - nu) / (mu * q) * snd (f 2%nat)).
  Proof.
    unfold surf, G. rewrite (G20 mu nu qx qy), (G21 mu nu qx qy), (G22 mu nu qx qy) by (lra || assumption). fold q.
    apply injective_projections; unfold Cplus, Cmult; cbn [fst snd]; unfold Rdiv; ring.
  Qed.

  Lemma Q : 0 < q. Proof. apply q_pos; exact Hq. Qed.
  Lemma Q2 : q ^ 2 = qx ^ 2 + qy ^ 2. Proof. apply q_sq; exact Hq. Qed.

  Ltac flat := unfold sa, sb, ea, eb, da, db, ai, bi, zz, zb, bb, ss; cbn [Nat.eqb];
    unfold csum, cscal, ix; cbn [fst snd].

  (** Equilibrium holds whatever the surface displacements are. *)
  Lemma equil_amp : forall i, (i < 3)%nat ->
    let A := sa qx qy q (surf 0) (surf 1) (surf 2) (bb 0) (bb 1) (bb 2) lam mu in
    let B := sb qx qy q (bb 0) (bb 1) (bb 2) lam mu in
    csum (csum (da qx qy q 0 (A i 0%nat) (B i 0%nat)) (da qx qy q 1 (A i 1%nat) (B i 1%nat))) (da qx qy q 2 (A i 2%nat) (B i 2%nat)) = (0, 0) /\
    csum (csum (db qx qy q 0 (B i 0%nat)) (db qx qy q 1 (B i 1%nat))) (db qx qy q 2 (B i 2%nat)) = (0, 0).
  Proof.
    intros i Hi. cbv zeta. pose proof Q as HQ. pose proof Q2 as E.
    assert (EX : qx ^ 2 = q ^ 2 - qy ^ 2) by lra.
    assert (H3 : 3 - 4 * nu <> 0) by lra. assert (H2 : 1 - 2 * nu <> 0) by lra.
    unfold bb, ss. generalize (surf 0) (surf 1) (surf 2). intros [p0 r0] [p1 r1] [p2 r2].
    unfold lam. clear E. clearbody q. clear lam G f.
    destruct (lt3 i Hi) as [X|[X|X]]; subst i; split; flat; (apply injective_projections; cbn [fst snd]; field [EX]; repeat split; lra).
  Qed.
  Lemma force_amp : forall i, (i < 3)%nat ->
    let A := sa qx qy q (surf 0) (surf 1) (surf 2) (bb 0) (bb 1) (bb 2) lam mu in
    (- fst (A i 2%nat), - snd (A i 2%nat)) = f i.
  Proof.
    intros i Hi. cbv zeta. pose proof Q as HQ. pose proof Q2 as E.
    assert (EX : qx ^ 2 = q ^ 2 - qy ^ 2) by lra.
    assert (H3 : 3 - 4 * nu <> 0) by lra. assert (H2 : 1 - 2 * nu <> 0) by lra.
    unfold bb, ss. rewrite surf0, surf1, surf2. unfold lam.
    replace (f i) with (match i with 0%nat => f 0%nat | 1%nat => f 1%nat | _ => f 2%nat end)
      by (destruct (lt3 i Hi) as [X|[X|X]]; subst i; reflexivity).
    generalize (f 0%nat) (f 1%nat) (f 2%nat). intros [p0 r0] [p1 r1] [p2 r2].
    clear E. clearbody q. clear lam G f.
    destruct (lt3 i Hi) as [X|[X|X]]; subst i; flat; (apply injective_projections; cbn [fst snd]; field [EX]; repeat split; lra).
  Qed.

  Lemma usol_solution : half_space_solution lam mu usol (fun i x y => wave qx qy (f i) x y).
  Proof.
    assert (SF : forall i j, (i < 3)%nat -> (j < 3)%nat -> stress lam mu usol i j =
      Fam qx qy q (sa qx qy q (surf 0) (surf 1) (surf 2) (bb 0) (bb 1) (bb 2) lam mu i j)
                  (sb qx qy q (bb 0) (bb 1) (bb 2) lam mu i j)).
    { intros i j Hi Hj. apply stress_fam; assumption. }
    constructor.
    - intros i Hi. unfold usol. rewrite fld_eq by exact Hi. apply Fam_diff.
    - intros i j Hi Hj. rewrite SF by assumption. apply Fam_diff.
    - intros i x y z Hi. rewrite !SF by lia. rewrite !pdi by lia.
      destruct (equil_amp i Hi) as [EA EB]. cbv zeta in EA, EB.
      match goal with |- Fam _ _ _ ?A0 ?B0 _ _ _ + Fam _ _ _ ?A1 ?B1 _ _ _ + Fam _ _ _ ?A2 ?B2 _ _ _ = 0 =>
        transitivity (Fam qx qy q (csum (csum A0 A1) A2) (csum (csum B0 B1) B2) x y z) end.
      + unfold Fam, csum. cbn [fst snd]. ring.
      + rewrite EA, EB. apply Fam_0.
    - intros i x y Hi. rewrite SF by lia. rewrite <- (force_amp i Hi). unfold Fam, wave. cbn [fst snd].
      rewrite Rmult_0_r, exp_0. ring.
    - intros i x y Hi. unfold usol. rewrite fld_eq by exact Hi. apply fam_limit. exact Q.
  Qed.
  Lemma usol_surface : forall i x y, (i < 3)%nat -> usol i x y 0 = wave qx qy (surf i) x y.
  Proof.
    intros i x y Hi. unfold usol. rewrite fld_eq by exact Hi. unfold Fam, wave. rewrite Rmult_0_r, exp_0.
    destruct (lt3 i Hi) as [X|[X|X]]; subst i; unfold ai, bi; ring.
  Qed.
End Solution.
