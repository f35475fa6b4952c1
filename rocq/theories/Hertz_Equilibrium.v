(** * Mechanical equilibrium of the Hertz stress fields *)

From Coq Require Import Reals Lra Lia Psatz.
From Coquelicot Require Import Coquelicot.
From Verif Require Import Hertz_Model Calc Hertz_Proofs Hertz_Surface Hertz_Interior.
Local Open Scope R_scope.

(** ** Derivatives of the spheroidal coordinates *)
Section Derivatives.
  Variables (q z : R).
  Hypotheses (Hq : 0 < q) (Hz : 0 < z).
  Let S := hS q z.
  Let M := hM q z.
  Let N := hN q z.
  Let A := hA q z.

  Lemma HSp : 0 < S. Proof. apply S_gt0; [lra|right; lra]. Qed.
  Lemma HMp : 0 < M.
  Proof.
    pose proof (MN q z ltac:(lra)) as E. pose proof (M_ge0 q z) as G. fold M N in E. fold M in G.
    destruct G as [G|G]; [exact G|]. rewrite <- G in E. lra.
  Qed.
  Lemma HNp : 0 < N.
  Proof.
    pose proof (MN q z ltac:(lra)) as E. pose proof (N_ge0 q z) as G. fold M N in E. fold N in G.
    destruct G as [G|G]; [exact G|]. rewrite <- G in E. lra.
  Qed.
  Lemma HMsq : 0 < (S + A) / 2.
  Proof. pose proof (M_sq q z) as E. fold S A M in E. rewrite <- E. pose proof HMp. nra. Qed.
  Lemma HNsq : 0 < (S - A) / 2.
  Proof. pose proof (N_sq q z) as E. fold S A N in E. rewrite <- E. pose proof HNp. nra. Qed.

  Lemma is_derive_sqrt' : forall (f : R -> R) x df, is_derive f x df -> 0 < f x ->
    is_derive (fun t => sqrt (f t)) x (df / (2 * sqrt (f x))).
  Proof.
    intros f x df D P. evar_last.
    - apply is_derive_sqrt; [exact D|exact P].
    - reflexivity.
  Qed.

  Lemma dS_q : is_derive (fun t => hS t z) q (A / S).
  Proof.
    unfold hS. evar_last.
    - apply (is_derive_sqrt' (fun t => hA t z ^ 2 + 4 * z ^ 2) q (2 * A)).
      + unfold hA. auto_derive; [exact I|]. unfold A, hA. ring.
      + pose proof (pow2_ge_0 (hA q z)). nra.
    - fold (hS q z). fold S. pose proof HSp. inR. field. lra.
  Qed.
  Lemma dM_q : is_derive (fun t => hM t z) q (M / (2 * S)).
  Proof.
    pose proof HSp. pose proof HMp. unfold hM. evar_last.
    - apply (is_derive_sqrt' (fun t => (hS t z + hA t z) / 2) q ((A / S + 1) / 2)).
      + apply (is_derive_ext (fun t => scal (/ 2) (plus (hS t z) (hA t z)))).
        { intros t. change (/ 2 * (hS t z + hA t z) = (hS t z + hA t z) / 2). field. }
        evar_last.
        * apply @is_derive_scal. apply @is_derive_plus; [apply dS_q|]. unfold hA. auto_derive; [exact I|reflexivity].
        * change (/ 2 * (A / S + 1) = (A / S + 1) / 2). field. lra.
      + exact HMsq.
    - fold (hM q z). fold M. pose proof (M_sq q z) as E. fold S A M in E.
      replace ((A / S + 1) / 2) with ((S + A) / 2 / S) by (field; lra). rewrite <- E. inR. field. lra.
  Qed.
  Lemma dN_q : is_derive (fun t => hN t z) q (- N / (2 * S)).
  Proof.
    pose proof HSp. pose proof HNp. unfold hN. evar_last.
    - apply (is_derive_sqrt' (fun t => (hS t z - hA t z) / 2) q ((A / S - 1) / 2)).
      + apply (is_derive_ext (fun t => scal (/ 2) (minus (hS t z) (hA t z)))).
        { intros t. change (/ 2 * (hS t z - hA t z) = (hS t z - hA t z) / 2). field. }
        evar_last.
        * apply @is_derive_scal. apply @is_derive_minus; [apply dS_q|]. unfold hA. auto_derive; [exact I|reflexivity].
        * change (/ 2 * (A / S - 1) = (A / S - 1) / 2). field. lra.
      + exact HNsq.
    - fold (hN q z). fold N. pose proof (N_sq q z) as E. fold S A N in E.
      replace ((A / S - 1) / 2) with (- ((S - A) / 2) / S) by (field; lra). rewrite <- E. inR. field. lra.
  Qed.

  Lemma dS_z : is_derive (fun t => hS q t) z (2 * z * (A + 2) / S).
  Proof.
    unfold hS. evar_last.
    - apply (is_derive_sqrt' (fun t => hA q t ^ 2 + 4 * t ^ 2) z (4 * z * A + 8 * z)).
      + unfold hA. auto_derive; [exact I|]. unfold A, hA. ring.
      + pose proof (pow2_ge_0 (hA q z)). nra.
    - fold (hS q z). fold S. pose proof HSp. inR. field. lra.
  Qed.
  Lemma dM_z : is_derive (fun t => hM q t) z (N * (1 + M ^ 2) / S).
  Proof.
    pose proof HSp. pose proof HMp. unfold hM. evar_last.
    - apply (is_derive_sqrt' (fun t => (hS q t + hA q t) / 2) z ((2 * z * (A + 2) / S + 2 * z) / 2)).
      + apply (is_derive_ext (fun t => scal (/ 2) (plus (hS q t) (hA q t)))).
        { intros t. change (/ 2 * (hS q t + hA q t) = (hS q t + hA q t) / 2). field. }
        evar_last.
        * apply @is_derive_scal. apply @is_derive_plus; [apply dS_z|]. unfold hA. auto_derive; [exact I|reflexivity].
        * change (/ 2 * (2 * z * (A + 2) / S + 1 * (2 * (z * 1))) = (2 * z * (A + 2) / S + 2 * z) / 2). field. lra.
      + exact HMsq.
    - fold (hM q z). fold M. pose proof (MN q z ltac:(lra)) as E. pose proof (S_MN q z) as ES. pose proof (A_MN q z) as EA.
      fold M N in E. fold S M N in ES. fold A M N in EA. inR. rewrite <- E, EA. clearbody A. 
      replace ((2 * (M * N) * (M ^ 2 - N ^ 2 + 2) / S + 2 * (M * N)) / 2 / (2 * M))
        with (N * (M ^ 2 - N ^ 2 + 2 + S) / (2 * S)) by (field; lra).
      replace (N * (M ^ 2 - N ^ 2 + 2 + S) / (2 * S)) with (N * (M ^ 2 - N ^ 2 + 2 + (M ^ 2 + N ^ 2)) / (2 * S))
        by (rewrite <- ES; reflexivity).
      field. lra.
  Qed.
  Lemma dN_z : is_derive (fun t => hN q t) z (M * (1 - N ^ 2) / S).
  Proof.
    pose proof HSp. pose proof HNp. unfold hN. evar_last.
    - apply (is_derive_sqrt' (fun t => (hS q t - hA q t) / 2) z ((2 * z * (A + 2) / S - 2 * z) / 2)).
      + apply (is_derive_ext (fun t => scal (/ 2) (minus (hS q t) (hA q t)))).
        { intros t. change (/ 2 * (hS q t - hA q t) = (hS q t - hA q t) / 2). field. }
        evar_last.
        * apply @is_derive_scal. apply @is_derive_minus; [apply dS_z|]. unfold hA. auto_derive; [exact I|reflexivity].
        * change (/ 2 * (2 * z * (A + 2) / S - 1 * (2 * (z * 1))) = (2 * z * (A + 2) / S - 2 * z) / 2). field. lra.
      + exact HNsq.
    - fold (hN q z). fold N. pose proof (MN q z ltac:(lra)) as E. pose proof (S_MN q z) as ES. pose proof (A_MN q z) as EA.
      fold M N in E. fold S M N in ES. fold A M N in EA. inR. rewrite <- E, EA. clearbody A. 
      replace ((2 * (M * N) * (M ^ 2 - N ^ 2 + 2) / S - 2 * (M * N)) / 2 / (2 * N))
        with (M * (M ^ 2 - N ^ 2 + 2 - S) / (2 * S)) by (field; lra).
      replace (M * (M ^ 2 - N ^ 2 + 2 - S) / (2 * S)) with (M * (M ^ 2 - N ^ 2 + 2 - (M ^ 2 + N ^ 2)) / (2 * S))
        by (rewrite <- ES; reflexivity).
      field. lra.
  Qed.
End Derivatives.

(** The stress of normal loading in the coordinates [M], [N] *)
Definition nor (nu x y M N : R) : cart :=
  let c := normal_formula nu x y (M * N) ((1 + M ^ 2) * (1 - N ^ 2)) (M ^ 2 - N ^ 2) (M ^ 2 + N ^ 2) M N (PI / 2 - atan M) in
  mkCart (t_xx c) (t_yy c) (t_zz c)
    (- y * M * N ^ 2 / ((M ^ 2 + N ^ 2) * (1 + M ^ 2))) (- x * M * N ^ 2 / ((M ^ 2 + N ^ 2) * (1 + M ^ 2))) (t_xy c).
Definition tang (nu x y M N : R) : cart :=
  tangential_formula nu x y (M * N) ((1 + M ^ 2) * (1 - N ^ 2)) (M ^ 2 - N ^ 2) (M ^ 2 + N ^ 2) M N (PI / 2 - atan M).

Lemma normal_nor : forall nu x y z, 0 < x ^ 2 + y ^ 2 -> 0 <= z -> (x ^ 2 + y ^ 2 <> 1 \/ z <> 0) ->
  stress_Cartesian1 nu x y z = nor nu x y (hM (x ^ 2 + y ^ 2) z) (hN (x ^ 2 + y ^ 2) z).
Proof.
  intros nu x y z Hq Hz Hs. unfold stress_Cartesian1. destruct (Rlt_dec 0 (x ^ 2 + y ^ 2)); [|lra].
  cbv zeta. unfold nor. set (q := x ^ 2 + y ^ 2) in *.
  pose proof (S_gt0 q z Hz Hs) as HS. pose proof (N_ge0 q z) as HN.
  rewrite <- (q_MN q z) by lra. rewrite <- (A_MN q z). rewrite (MN q z Hz).
  pose proof (S_MN q z) as ES. rewrite <- ES.
  change (PI / 2 - atan (hM q z)) with (arctan2_1 (hM q z)).
  unfold normal_formula; cbn [t_xx t_yy t_zz t_yz t_xz t_xy].
  pose proof (MN q z Hz) as Ez. rewrite ES in HS.
  set (M := hM q z) in *. set (N := hN q z) in *.
  set (G := M ^ 2 - N ^ 2 + z * M - N). set (H := 2 * M * N + M + z * N).
  assert (P1 : 1 + M ^ 2 <> 0) by nra. assert (P4 : 1 + N <> 0) by lra.
  assert (GH : H / (G ^ 2 + H ^ 2) = M / ((M ^ 2 + N ^ 2) * (1 + M ^ 2))).
  { assert (EH : H = M * (1 + N) ^ 2) by (unfold H; rewrite <- Ez; ring).
    assert (EG : G ^ 2 + H ^ 2 = (1 + N) ^ 2 * ((M ^ 2 + N ^ 2) * (1 + M ^ 2)))
      by (unfold G, H; rewrite <- Ez; ring).
    rewrite EG, EH. field. repeat split; try assumption; lra. }
  assert (T : forall w, w * z * H / (G ^ 2 + H ^ 2) = w * z * (M / ((M ^ 2 + N ^ 2) * (1 + M ^ 2)))).
  { intros w. rewrite <- GH. unfold Rdiv. ring. }
  rewrite !T. clear T GH. f_equal; rewrite ES, <- Ez; field; repeat split; try assumption; lra.
Qed.
Lemma tang_tang : forall nu x y z, 0 < x ^ 2 + y ^ 2 -> 0 <= z ->
  stress_for_tangential_loading1 nu x y z = tang nu x y (hM (x ^ 2 + y ^ 2) z) (hN (x ^ 2 + y ^ 2) z).
Proof.
  intros nu x y z Hq Hz. unfold stress_for_tangential_loading1. destruct (Rlt_dec 0 (x ^ 2 + y ^ 2)); [|lra].
  cbv zeta. unfold tang. set (q := x ^ 2 + y ^ 2) in *.
  rewrite <- (q_MN q z), <- S_MN, <- A_MN by lra. rewrite (MN q z Hz). reflexivity.
Qed.

(** ** Partial derivatives of a function of x, y, M, N *)
Section Partial.
  Variables (x y z : R).
  Hypotheses (Hq : 0 < x ^ 2 + y ^ 2) (Hz : 0 < z).
  Let q := x ^ 2 + y ^ 2.
  Let M := hM q z.
  Let N := hN q z.
  Let S := hS q z.
  Lemma dM_x : is_derive (fun t => hM (t ^ 2 + y ^ 2) z) x (x * M / S).
  Proof.
    evar_last.
    - apply (is_derive_comp (fun u => hM u z) (fun t => t ^ 2 + y ^ 2) x (M / (2 * S)) (2 * x)).
      + apply (dM_q q z Hz).
      + auto_derive; [exact I|ring].
    - change (2 * x * (M / (2 * S)) = x * M / S). pose proof (HSp q z Hz). fold S in H. field. lra.
  Qed.
  Lemma dN_x : is_derive (fun t => hN (t ^ 2 + y ^ 2) z) x (- x * N / S).
  Proof.
    evar_last.
    - apply (is_derive_comp (fun u => hN u z) (fun t => t ^ 2 + y ^ 2) x (- N / (2 * S)) (2 * x)).
      + apply (dN_q q z Hz).
      + auto_derive; [exact I|ring].
    - change (2 * x * (- N / (2 * S)) = - x * N / S). pose proof (HSp q z Hz). fold S in H. field. lra.
  Qed.
  Lemma dM_y : is_derive (fun t => hM (x ^ 2 + t ^ 2) z) y (y * M / S).
  Proof.
    evar_last.
    - apply (is_derive_comp (fun u => hM u z) (fun t => x ^ 2 + t ^ 2) y (M / (2 * S)) (2 * y)).
      + apply (dM_q q z Hz).
      + auto_derive; [exact I|ring].
    - change (2 * y * (M / (2 * S)) = y * M / S). pose proof (HSp q z Hz). fold S in H. field. lra.
  Qed.
  Lemma dN_y : is_derive (fun t => hN (x ^ 2 + t ^ 2) z) y (- y * N / S).
  Proof.
    evar_last.
    - apply (is_derive_comp (fun u => hN u z) (fun t => x ^ 2 + t ^ 2) y (- N / (2 * S)) (2 * y)).
      + apply (dN_q q z Hz).
      + auto_derive; [exact I|ring].
    - change (2 * y * (- N / (2 * S)) = - y * N / S). pose proof (HSp q z Hz). fold S in H. field. lra.
  Qed.

  Lemma loc_x : locally x (fun t => 0 < t ^ 2 + y ^ 2).
  Proof.
    assert (C : continuous (fun t => t ^ 2 + y ^ 2) x).
    { apply (ex_derive_continuous (V := R_NormedModule)). auto_derive. exact I. }
    apply (C (fun v => 0 < v)). apply (open_gt 0). exact Hq.
  Qed.
  Lemma loc_y : locally y (fun t => 0 < x ^ 2 + t ^ 2).
  Proof.
    assert (C : continuous (fun t => x ^ 2 + t ^ 2) y).
    { apply (ex_derive_continuous (V := R_NormedModule)). auto_derive. exact I. }
    apply (C (fun v => 0 < v)). apply (open_gt 0). exact Hq.
  Qed.
  Lemma loc_z : locally z (fun t => 0 < t).
  Proof. apply (open_gt 0). exact Hz. Qed.
End Partial.

(** The identities behind the equilibrium equations: functions [m], [n] along each axis with the
    right slopes. *)
Section Identities.
  Variables (nu x y M N : R) (mx nx my ny mz nz : R -> R) (z : R).
  Let S := M ^ 2 + N ^ 2.
  Hypotheses (HM : 0 < M) (HN : 0 < N) (HN1 : N < 1).
  Hypothesis Ey : x ^ 2 + y ^ 2 = (1 + M ^ 2) * (1 - N ^ 2).
  Hypotheses (vmx : mx x = M) (vnx : nx x = N) (vmy : my y = M) (vny : ny y = N) (vmz : mz z = M) (vnz : nz z = N).
  Hypotheses (dmx : is_derive mx x (x * M / S)) (dnx : is_derive nx x (- x * N / S)).
  Hypotheses (dmy : is_derive my y (y * M / S)) (dny : is_derive ny y (- y * N / S)).
  Hypotheses (dmz : is_derive mz z (N * (1 + M ^ 2) / S)) (dnz : is_derive nz z (M * (1 - N ^ 2) / S)).

  Lemma HP1 : 1 + M ^ 2 <> 0. Proof. nra. Qed.
  Lemma HP2 : 1 - N ^ 2 <> 0. Proof. nra. Qed.
  Lemma HP3 : M ^ 2 + N ^ 2 <> 0. Proof. nra. Qed.
  Lemma Dmx : Derive (fun t => mx t) x = x * M / S. Proof. apply is_derive_unique. exact dmx. Qed.
  Lemma Dnx : Derive (fun t => nx t) x = - x * N / S. Proof. apply is_derive_unique. exact dnx. Qed.
  Lemma Dmy : Derive (fun t => my t) y = y * M / S. Proof. apply is_derive_unique. exact dmy. Qed.
  Lemma Dny : Derive (fun t => ny t) y = - y * N / S. Proof. apply is_derive_unique. exact dny. Qed.
  Lemma Dmz : Derive (fun t => mz t) z = N * (1 + M ^ 2) / S. Proof. apply is_derive_unique. exact dmz. Qed.
  Lemma Dnz : Derive (fun t => nz t) z = M * (1 - N ^ 2) / S. Proof. apply is_derive_unique. exact dnz. Qed.

  Ltac vals := rewrite ?vmx, ?vnx, ?vmy, ?vny, ?vmz, ?vnz.
  Ltac nz0 := first [ assumption | nra | apply pow_nonzero; nz0 | apply Rmult_integral_contrapositive_currified; nz0 ].
  Ltac side := repeat split; try exact I; try (eexists; eassumption); vals;
    pose proof HP1; pose proof HP2; pose proof HP3; nz0.
  Ltac der := auto_derive; [side|reflexivity].
  Ltac ident := rewrite ?Dmx, ?Dnx, ?Dmy, ?Dny, ?Dmz, ?Dnz; vals; unfold S;
    assert (Ey' : y ^ 2 = (1 + M ^ 2) * (1 - N ^ 2) - x ^ 2) by lra;
    pose proof HP1; pose proof HP2; pose proof HP3;
    field [Ey']; repeat split; nz0.

  Lemma id_nor_z :
    exists a b c, is_derive (fun t => t_xz (nor nu t y (mx t) (nx t))) x a
      /\ is_derive (fun t => t_yz (nor nu x t (my t) (ny t))) y b
      /\ is_derive (fun t => t_zz (nor nu x y (mz t) (nz t))) z c /\ a + b + c = 0.
  Proof.
    unfold nor, tang, normal_formula, tangential_formula; cbn [t_xx t_yy t_zz t_yz t_xz t_xy].
    do 3 eexists. split; [|split; [|split]]; [der|der|der|].
    ident.
  Qed.
  Lemma id_nor_x :
    exists a b c, is_derive (fun t => t_xx (nor nu t y (mx t) (nx t))) x a
      /\ is_derive (fun t => t_xy (nor nu x t (my t) (ny t))) y b
      /\ is_derive (fun t => t_xz (nor nu x y (mz t) (nz t))) z c /\ a + b + c = 0.
  Proof.
    unfold nor, tang, normal_formula, tangential_formula; cbn [t_xx t_yy t_zz t_yz t_xz t_xy].
    do 3 eexists. split; [|split; [|split]]; [der|der|der|].
    ident.
  Qed.
  Lemma id_nor_y :
    exists a b c, is_derive (fun t => t_xy (nor nu t y (mx t) (nx t))) x a
      /\ is_derive (fun t => t_yy (nor nu x t (my t) (ny t))) y b
      /\ is_derive (fun t => t_yz (nor nu x y (mz t) (nz t))) z c /\ a + b + c = 0.
  Proof.
    unfold nor, tang, normal_formula, tangential_formula; cbn [t_xx t_yy t_zz t_yz t_xz t_xy].
    do 3 eexists. split; [|split; [|split]]; [der|der|der|].
    ident.
  Qed.
  Lemma id_tang_z :
    exists a b c, is_derive (fun t => t_xz (tang nu t y (mx t) (nx t))) x a
      /\ is_derive (fun t => t_yz (tang nu x t (my t) (ny t))) y b
      /\ is_derive (fun t => t_zz (tang nu x y (mz t) (nz t))) z c /\ a + b + c = 0.
  Proof.
    unfold nor, tang, normal_formula, tangential_formula; cbn [t_xx t_yy t_zz t_yz t_xz t_xy].
    do 3 eexists. split; [|split; [|split]]; [der|der|der|].
    ident.
  Qed.
  Lemma id_tang_x :
    exists a b c, is_derive (fun t => t_xx (tang nu t y (mx t) (nx t))) x a
      /\ is_derive (fun t => t_xy (tang nu x t (my t) (ny t))) y b
      /\ is_derive (fun t => t_xz (tang nu x y (mz t) (nz t))) z c /\ a + b + c = 0.
  Proof.
    unfold nor, tang, normal_formula, tangential_formula; cbn [t_xx t_yy t_zz t_yz t_xz t_xy].
    do 3 eexists. split; [|split; [|split]]; [der|der|der|].
    ident.
  Qed.
  Lemma id_tang_y :
    exists a b c, is_derive (fun t => t_xy (tang nu t y (mx t) (nx t))) x a
      /\ is_derive (fun t => t_yy (tang nu x t (my t) (ny t))) y b
      /\ is_derive (fun t => t_yz (tang nu x y (mz t) (nz t))) z c /\ a + b + c = 0.
  Proof.
    unfold nor, tang, normal_formula, tangential_formula; cbn [t_xx t_yy t_zz t_yz t_xz t_xy].
    do 3 eexists. split; [|split; [|split]]; [der|der|der|].
    ident.
  Qed.
End Identities.

(** ** The first invariant *)
Section Trace.
  Variables (nu x y M N : R).
  Hypotheses (HM : 0 <= M) (HN : 0 <= N) (HN1 : N < 1) (HS : 0 < M ^ 2 + N ^ 2).
  Hypothesis Ey : x ^ 2 + y ^ 2 = (1 + M ^ 2) * (1 - N ^ 2).
  Lemma nor_trace : t_xx (nor nu x y M N) + t_yy (nor nu x y M N) + t_zz (nor nu x y M N)
    = 2 * (1 + nu) * (M * N * (PI / 2 - atan M) - N).
  Proof.
    unfold nor, normal_formula; cbn [t_xx t_yy t_zz].
    assert (Ey' : y ^ 2 = (1 + M ^ 2) * (1 - N ^ 2) - x ^ 2) by lra.
    field [Ey']. repeat split; nra.
  Qed.
  Lemma tang_trace : t_xx (tang nu x y M N) + t_yy (tang nu x y M N) + t_zz (tang nu x y M N)
    = - (1 + nu) * x * (PI / 2 - atan M - M / (1 + M ^ 2)).
  Proof.
    unfold tang, tangential_formula; cbn [t_xx t_yy t_zz].
    assert (Ey' : y ^ 2 = (1 + M ^ 2) * (1 - N ^ 2) - x ^ 2) by lra.
    field [Ey']. repeat split; nra.
  Qed.
End Trace.
