(** A calculation with a hardness that is reported as converged far from any
    solution: the mixing factor dies out before the pressure reaches the
    hardness. *)
From Coq Require Import Reals Lra List Bool Arith Lia FunctionalExtensionality.
From Verif Require Import CCG_Model CCG_Real CCG_Spec CCG_Proofs CCG_Conv.
Import ListNotations.
Local Open Scope R_scope.

(** 101 springs; the first two are coupled. *)
Definition springs (f : nat -> R) : nat -> R := fun i =>
  match i with O => - f 0%nat - f 1%nat / 2 | 1%nat => - f 1%nat - f 0%nat / 2 | _ => - f i end.
Definition unspring (u : nat -> R) : nat -> R := fun i =>
  match i with O => - (u 0%nat - u 1%nat / 2) * (4 / 3) | 1%nat => - (u 1%nat - u 0%nat / 2) * (4 / 3) | _ => - u i end.
Definition bumps : nat -> R := fun i => match i with O => 12 | 1%nat => 21 | _ => 10 end.
(** Hardness 5; defaults for start and mixing. *)
Definition spur (pentol forcetol thermotol : R) : @cfg R nat :=
  mkCfg [seq 0 101] (fun _ => true) (fun _ => false) bumps springs unspring (Some (HScalar 5)) None 0 None None
    pentol forcetol thermotol (1 / 10) (95 / 100) 10 101 (fun _ _ _ => None).

Section Spurious.
  Variables pentol forcetol thermotol : R.
  Hypothesis T1 : 0 < pentol.
  Hypothesis T2 : 0 < forcetol.
  Hypothesis T3 : 0 < thermotol.
  Local Notation K := (ROps nat).
  Let c := spur pentol forcetol thermotol.

  Lemma springs_linear : linear springs.
  Proof.
    split.
    - intros f g [|[|i]]; cbn [springs]; lra.
    - intros k f [|[|i]]; cbn [springs]; lra.
  Qed.
  Lemma grid_split : forall phi, lsum (grid c) phi = phi 0%nat + (phi 1%nat + lsum (seq 2 99) phi).
  Proof. intros phi. reflexivity. Qed.
  Lemma springs_adjoint : self_adjoint (grid c) springs.
  Proof.
    intros f g. rewrite !grid_split. cbn [springs].
    rewrite (lsum_ext (seq 2 99) (fun p => f p * springs g p) (fun p => g p * springs f p)).
    - lra.
    - intros p Hp. apply in_seq in Hp. destruct p as [|[|p]]; [lia|lia|]. cbn [springs]. lra.
  Qed.
  Lemma springs_compliant : compliant (grid c) springs.
  Proof.
    intros f (p & Ip & Fp). rewrite grid_split. cbn [springs].
    rewrite (lsum_ext (seq 2 99) (fun p => f p * springs f p) (fun p => - (f p * f p))).
    2:{ intros q Hq. apply in_seq in Hq. destruct q as [|[|q]]; [lia|lia|]. cbn [springs]. lra. }
    rewrite lsum_opp. set (s := lsum (seq 2 99) (fun p => f p * f p)).
    assert (S0 : 0 <= s) by (apply lsum_nonneg; intros; apply Rle_0_sqr).
    assert (Q : 0 < f p * f p) by (apply Rlt_0_sqr; exact Fp).
    assert (A : 0 <= f 0%nat * f 0%nat) by apply Rle_0_sqr. assert (B : 0 <= f 1%nat * f 1%nat) by apply Rle_0_sqr.
    assert (D : 0 <= (f 0%nat + f 1%nat) * (f 0%nat + f 1%nat)) by apply Rle_0_sqr.
    assert (E : f 0%nat * f 0%nat + f 1%nat * f 1%nat + s > 0).
    { destruct p as [|[|p]]; [lra|lra|].
      assert (f (S (S p)) * f (S (S p)) <= s); [|lra].
      apply (lsum_nonneg_ge (seq 2 99) (fun p => f p * f p) (S (S p))); [intros; apply Rle_0_sqr|].
      assert (Ip' : In (S (S p)) (seq 0 101)) by exact Ip. apply in_seq in Ip'. apply in_seq. lia. }
    lra.
  Qed.
  Lemma springs_inverse : forall u i, springs (unspring u) i = u i.
  Proof. intros u [|[|i]]; cbn [springs unspring]; lra. Qed.

  (** State before iteration [k + 1]: pressure [p] at the first spring. *)
  Definition load (k : nat) (p : R) : nat -> R := fun i =>
    match i with O => - p | 1%nat => if Nat.eqb k 0 then -20 else -5 | _ => if Nat.eqb k 0 then -10 else -5 end.
  Definition mixing (k : nat) : R := 1 / 10 * (95 / 100) ^ k.
  Definition spur_state (k : nat) (p : R) (s : @state R nat) : Prop :=
    s_f s = load k p /\ s_u s = springs (load k p) /\ s_off s = 0 /\ s_mixfac s = mixing k
    /\ s_lasttf s = (if Nat.eqb k 0 then None else Some (500 + p)).
  Definition next (k : nat) (p : R) : R := if Nat.eqb k 0 then 9 / 5 else (1 - mixing k) * p + mixing k * 5.

  Lemma mixing_range k : 0 < mixing k <= 1 / 10.
  Proof.
    unfold mixing. assert (0 < (95 / 100) ^ k) by (apply pow_lt; lra).
    assert ((95 / 100) ^ k <= 1).
    { induction k as [|k IH]; cbn [pow]; [lra|]. assert (0 < (95 / 100) ^ k) by (apply pow_lt; lra). specialize (IH H0). lra. }
    lra.
  Qed.
  Lemma next_range k p : 0 < p < 5 -> 0 < next k p < 5.
  Proof.
    intros L. unfold next. destruct (Nat.eqb k 0); [lra|]. pose proof (mixing_range k). split; nra.
  Qed.

  Lemma start : spur_state 0 2 (init_state K c).
  Proof.
    assert (U : s_u (init_state K c) = springs (load 0 2)).
    { apply functional_extensionality. intros [|[|i]]; cbn; unfold comp; cbn;
        match goal with |- context [Rltb ?a ?b] => assert (E : Rltb a b = true) by (apply Rltb_true; lra); rewrite E end; lra. }
    assert (U' : forall i, s_u (init_state K c) i = bumps i).
    { intros i. rewrite U. destruct i as [|[|i]]; cbn; lra. }
    split; [|split; [exact U|split; [reflexivity|split; [unfold mixing; cbn; lra|reflexivity]]]].
    apply functional_extensionality. intros i.
    change (s_f (init_state K c) i) with (unspring (s_u (init_state K c)) i).
    destruct i as [|[|i]]; cbn [unspring]; rewrite ?U'; cbn [bumps load Nat.eqb]; lra.
  Qed.

  Lemma load_neg k p i : 0 < p -> load k p i < 0.
  Proof. intros L. destruct i as [|[|i]]; cbn [load]; destruct (Nat.eqb k 0); lra. Qed.

  Lemma count_first : forall m, (forall i, (i < 101)%nat -> m i = Nat.eqb i 0) -> rcount (c_ranks c) m = 1%nat.
  Proof.
    intros m E. rewrite rcount_length. unfold c. cbn [spur c_ranks concat]. rewrite app_nil_r.
    rewrite (filter_ext_in m (fun i => Nat.eqb i 0)); [reflexivity|]. intros i Hi. apply in_seq in Hi. apply E. lia.
  Qed.
  Lemma count_all : forall m, (forall i, (i < 101)%nat -> m i = true) -> rcount (c_ranks c) m = 101%nat.
  Proof.
    intros m E. rewrite rcount_length. unfold c. cbn [spur c_ranks concat]. rewrite app_nil_r.
    rewrite (filter_ext_in m (fun i => true)); [reflexivity|]. intros i Hi. apply in_seq in Hi. apply E. lia.
  Qed.

  Section Step.
    Variables (k : nat) (p : R) (s : @state R nat).
    Hypothesis L : 0 < p < 5.
    Hypothesis L0 : k = O -> p = 2.
    Hypothesis St : spur_state k p s.
    Let m := mixing k.

    Lemma spur_mixes : do_cg K c s = false.
    Proof.
      destruct St as (Sf & _). unfold do_cg. change (c_hard c) with (Some (@HScalar R nat 5)). cbv iota.
      assert (C1 : rcount (c_ranks c) (contact_set K s) = 101%nat).
      { apply count_all. intros i _. unfold contact_set. rewrite Sf. apply Rltb_true. apply load_neg. lra. }
      assert (C2 : rcount (c_ranks c) (cg_set K c s) = 1%nat).
      { apply count_first. intros i _. unfold cg_set. change (c_hard c) with (Some (@HScalar R nat 5)). cbv iota. rewrite Sf.
        assert (E : oltb K (load k p i) (o0 K) = true) by (apply Rltb_true; apply load_neg; lra). rewrite E. cbn [andb hval oltb oopp ROps].
        destruct i as [|[|i]]; cbn [load Nat.eqb].
        - apply Rltb_true. lra.
        - apply Rltb_false. destruct (Nat.eqb k 0); lra.
        - apply Rltb_false. destruct (Nat.eqb k 0); lra. }
      rewrite C1, C2. reflexivity.
    Qed.

    (** The gap before the step. *)
    Lemma spur_gap i : s_u s i - bumps i - 0 = (if Nat.eqb k 0 then 0 else springs (load k p) i - bumps i).
    Proof.
      destruct St as (_ & Su & _). rewrite Su. destruct (Nat.eqb k 0) eqn:E; [|lra].
      apply Nat.eqb_eq in E. rewrite (L0 E), E. destruct i as [|[|i]]; cbn; lra.
    Qed.
    Lemma spur_penetrates i : Rltb (s_u s i - bumps i - 0) 0 = negb (Nat.eqb k 0).
    Proof.
      rewrite spur_gap. destruct (Nat.eqb k 0) eqn:E; cbn [negb].
      - apply Rltb_false. lra.
      - apply Rltb_true. destruct i as [|[|i]]; cbn [springs load bumps]; rewrite ?E; lra.
    Qed.

    Lemma spur_half : exists h, first_half K c s = Ok h /\ h_str h = Mix /\ h_off h = 0 /\ h_mixfac h = mixing (S k)
      /\ (forall i, h_f h i = (1 - m) * load k p i - m * (if Nat.eqb k 0 then 0 else 5)).
    Proof.
      destruct St as (Sf & Su & So & Sm & _).
      unfold first_half. change (c_hard c) with (Some (@HScalar R nat 5)). cbv iota. rewrite spur_mixes.
      unfold mix_half. change (c_ext c) with (@None R). cbv iota. eexists. split; [reflexivity|].
      cbn [h_str h_off h_mixfac h_f]. split; [reflexivity|]. split; [exact So|].
      split; [rewrite Sm; change (mixing k * (95 / 100) = mixing (S k)); unfold mixing; cbn [pow]; ring|].
      intros i. cbn [ROps mat osub omul]. rewrite Sf, Sm, So. fold m.
      change (c_h c i) with (bumps i). unfold bmul.
      assert (E : oltb K (s_u s i - bumps i - 0) (o0 K) = negb (Nat.eqb k 0)) by exact (spur_penetrates i).
      change (comp c i) with true. cbn iota. cbn [ROps osub] in E |- *. cbn in E |- *.
      rewrite E. destruct (Nat.eqb k 0); cbn [negb]; lra.
    Qed.

    Lemma spur_new : forall h, first_half K c s = Ok h -> h_str h = Mix ->
      (forall i, h_f h i = (1 - m) * load k p i - m * (if Nat.eqb k 0 then 0 else 5)) ->
      new_force K c h = load (S k) (next k p).
    Proof.
      intros h _ Hs Hf. apply functional_extensionality. intros i. unfold new_force. rewrite Hs. cbn [is_mix].
      unfold clip_flow, adjust_force. change (c_hard c) with (Some (@HScalar R nat 5)). change (c_ext c) with (@None R). cbv iota. cbn [ROps mat hval oopp].
      unfold mask_flowing. change (c_hard c) with (Some (@HScalar R nat 5)). cbv iota. cbn [ROps hval oopp].
      pose proof (mixing_range k) as M. fold m in M.
      pose proof (clip_tensile_cases h i) as CT. rewrite Hf in *.
      destruct i as [|[|i]]; cbn [load Nat.eqb] in *.
      - unfold next. fold m. destruct (Nat.eqb k 0) eqn:E.
        + apply Nat.eqb_eq in E. assert (m = 1 / 10) by (unfold m, mixing; rewrite E; cbn; lra). rewrite (L0 E) in *.
          assert (Q : leb K ((1 - m) * - (2) - m * 0) (- (5)) = false) by (apply leb_false; lra). rewrite Q.
          destruct CT as [[_ ->]|[A _]]; lra.
        + assert (P1 : -5 < (1 - m) * - p - m * 5) by nra. assert (P2 : (1 - m) * - p - m * 5 < 0) by nra.
          assert (Q : leb K ((1 - m) * - p - m * 5) (- (5)) = false) by (apply leb_false; lra). rewrite Q.
          destruct CT as [[_ ->]|[A _]]; lra.
      - assert (Q : leb K ((1 - m) * (if Nat.eqb k 0 then -20 else -5) - m * (if Nat.eqb k 0 then 0 else 5)) (- (5)) = true)
          by (apply leb_true; destruct (Nat.eqb k 0); lra).
        rewrite Q. lra.
      - assert (Q : leb K ((1 - m) * (if Nat.eqb k 0 then -10 else -5) - m * (if Nat.eqb k 0 then 0 else 5)) (- (5)) = true)
          by (apply leb_true; destruct (Nat.eqb k 0); lra).
        rewrite Q. lra.
    Qed.
    Lemma tot_load k' q : - rsum K (c_ranks c) (fun i => bmul K (comp c i) (load (S k') q i)) = 500 + q.
    Proof.
      rewrite rsum_lsum. fold (grid c).
      rewrite (lsum_ext (grid c) _ (load (S k') q)) by (intros; reflexivity). rewrite grid_split. cbn [load Nat.eqb].
      rewrite (lsum_ext (seq 2 99) (load (S k') q) (fun _ => -5 * 1)).
      - rewrite lsum_scal. assert (E : lsum (seq 2 99) (fun _ => 1) = 99) by (unfold lsum; cbn; lra). rewrite E. lra.
      - intros i Hi. apply in_seq in Hi. destruct i as [|[|i]]; [lia|lia|]. cbn [load Nat.eqb]. lra.
    Qed.

    Lemma spur_iter : exists fu, iter K c s = Ok fu /\ spur_state (S k) (next k p) (fu_state fu)
      /\ (k <> O -> 5 * m < pentol -> m < 100 * thermotol -> fu_conv fu = true).
    Proof.
      destruct spur_half as (h & Hf & Hs & Ho & Hm & Hff). pose proof (spur_new h Hf Hs Hff) as NF.
      pose proof (mixing_range k) as M. fold m in M. pose proof (next_range k p L) as NR.
      assert (MP : exists mp, max_pres K c h = Ok mp /\ (k <> O -> mp = 0)).
      { unfold max_pres. change (c_hard c) with (Some (@HScalar R nat 5)). cbv iota.
        assert (Z0 : oeqb K 5 (o0 K) = false) by (apply Reqb_false; cbn; lra). rewrite Z0.
        assert (TZ : Nat.ltb 0 (rcount (c_ranks c) (mask_tensile K h)) = false).
        { apply rcount_zero. intros i _. unfold mask_tensile. apply leb_false. rewrite Hff. pose proof (load_neg k p i ltac:(lra)).
          cbn [o0 ROps]. destruct (Nat.eqb k 0); nra. }
        rewrite TZ. destruct (Nat.ltb 0 (rcount (c_ranks c) (mask_flowing K c h))); [|eauto].
        pose proof (rmin_is_min (c_ranks c) (mask_flowing K c h) (fun i => oadd K (h_f h i) 5)) as IM.
        destruct (rmin K (c_ranks c) (mask_flowing K c h) (fun i => oadd K (h_f h i) 5)) as [v|]; [|eauto].
        eexists. split; [reflexivity|]. intros NZ. destruct IM as [_ (i & Hi & V)]. apply filter_In in Hi. destruct Hi as [_ Hi].
        unfold mask_flowing in Hi. change (c_hard c) with (Some (@HScalar R nat 5)) in Hi. cbv iota in Hi. apply leb_true in Hi.
        cbn [hval oopp oadd ROps] in Hi, V. rewrite Hff in Hi, V.
        assert (EK : Nat.eqb k 0 = false) by (apply Nat.eqb_neq; exact NZ). rewrite EK in *.
        assert (V0 : v = 0).
        { destruct i as [|[|i]]; cbn [load] in Hi, V; rewrite ?EK in Hi, V; nra. }
        rewrite V0. rewrite maxF_Rmax. cbn [oopp ROps o0]. rewrite Ropp_0. apply Rmax_left. lra. }
      destruct MP as (mp & MP & MZ).
      unfold iter. rewrite Hf. unfold second_half. rewrite MP, NF. eexists. split; [reflexivity|].
      cbn [fu_state fu_conv]. split.
      { unfold spur_state. cbn [s_f s_u s_off s_mixfac s_lasttf]. split; [reflexivity|]. split; [reflexivity|].
        split; [exact Ho|]. split; [exact Hm|]. cbn [Nat.eqb]. f_equal. exact (tot_load k (next k p)). }
      intros NZ S1 S2. assert (EK : Nat.eqb k 0 = false) by (apply Nat.eqb_neq; exact NZ).
      destruct St as (Sf & Su & So & _ & Sl). rewrite EK in Sl. rewrite Sl. change (c_ext c) with (@None R). cbv iota.
      assert (NX : next k p = (1 - m) * p + m * 5) by (unfold next; rewrite EK; reflexivity).
      assert (D0 : 0 <= next k p - p <= 5 * m) by (rewrite NX; split; nra).
      assert (PP : pad_pres K c h = 0).
      { unfold pad_pres. assert (E : Nat.ltb 0 (rcount (c_ranks c) (pad c)) = false) by (apply rcount_zero; reflexivity). rewrite E. reflexivity. }
      rewrite Hs, PP, (MZ NZ). cbn [is_mix]. rewrite andb_true_r.
      apply andb_true_iff. split; [|apply andb_true_iff; split; [apply andb_true_iff; split|]].
      - cbn [oopp ROps]. rewrite (tot_load k (next k p)).
        unfold rel_lt. cbn [oeqb osub odiv oltb o0 ROps].
        assert (E : Reqb (500 + next k p) 0 = false) by (apply Reqb_false; lra). rewrite E, absF_Rabs. apply Rltb_true.
        change (c_thermotol c) with thermotol. replace (500 + next k p - (500 + p)) with (next k p - p) by ring.
        rewrite Rabs_pos_eq by (apply Rmult_le_pos; [lra|left; apply Rinv_0_lt_compat; lra]).
        apply (Rmult_lt_reg_r (500 + next k p)); [lra|]. unfold Rdiv. rewrite Rmult_assoc, Rinv_l, Rmult_1_r by lra. nra.
      - apply rmax_lt. intros i _ _. rewrite absF_Rabs, Su. change (c_pentol c) with pentol. cbn [osub ROps mat].
        change (c_disp c) with springs. destruct i as [|[|i]]; cbn [springs load]; rewrite ?EK; cbn [Nat.eqb]; apply Rabs_def1; lra.
      - apply Rltb_true. exact T2.
      - apply Rltb_true. exact T2.
    Qed.
  End Step.

  Lemma small_mixing : exists n, (1 <= n)%nat /\ 5 * mixing n < pentol /\ mixing n < 100 * thermotol.
  Proof.
    set (e := Rmin (pentol / 5) (100 * thermotol)). assert (PE : 0 < e) by (apply Rmin_glb_lt; lra).
    destruct (pow_lt_1_zero (95 / 100) ltac:(rewrite Rabs_pos_eq; lra) e PE) as (n & Hn).
    exists (S n). split; [lia|]. specialize (Hn (S n) ltac:(lia)).
    assert (0 < (95 / 100) ^ S n) by (apply pow_lt; lra). rewrite Rabs_pos_eq in Hn by lra.
    assert (mixing (S n) < e) by (unfold mixing; lra).
    pose proof (Rmin_l (pentol / 5) (100 * thermotol)). pose proof (Rmin_r (pentol / 5) (100 * thermotol)). fold e in H1, H2. lra.
  Qed.

  Lemma spur_loop n : 5 * mixing n < pentol -> mixing n < 100 * thermotol -> (1 <= n)%nat ->
    forall fuel maxiter k p s last, 0 < p < 5 -> (k = O -> p = 2) -> spur_state k p s -> (k <= n < k + fuel)%nat ->
    exists r, snd (loop K c maxiter fuel s last) = Ok r /\ x_success r = true
      /\ 0 < x_jac r 0%nat < 5 /\ x_x r 0%nat - bumps 0 - x_offset r < -4.
  Proof.
    intros S1 S2 N1. induction fuel as [|fuel IH]; intros maxiter k p s last L L0 St KN; [lia|]. cbn [loop].
    destruct (spur_iter k p s L L0 St) as (fu & Ei & St' & CV). rewrite Ei. pose proof (next_range k p L) as NR.
    destruct (fu_conv fu) eqn:EC.
    - eexists. split; [reflexivity|]. cbn [converged_result x_success x_jac x_x x_offset]. split; [reflexivity|].
      destruct St' as (Sf & Su & So & _). rewrite Sf, Su, So. cbn [load springs bumps Nat.eqb oopp ROps]. lra.
    - assert (KN' : (S k <= n < S k + fuel)%nat).
      { destruct (Nat.eq_dec k n) as [E|E]; [|lia]. exfalso. subst k. assert (NZ : n <> O) by lia. specialize (CV NZ S1 S2). discriminate CV. }
      assert (D : S k = O -> next k p = 2) by discriminate.
      destruct (IH maxiter (S k) (next k p) (fu_state fu) (Some fu) NR D St' KN') as (r & Hr & Q).
      exists r. destruct (loop K c maxiter fuel (fu_state fu) (Some fu)) as [e o]. cbn [snd] in *. split; [exact Hr|exact Q].
  Qed.
  Lemma spur_run : exists n r, ccg c n = Ok r /\ x_success r = true /\ 0 < x_jac r 0%nat < 5 /\ gap c r 0%nat < -4.
  Proof.
    destruct small_mixing as (n & N1 & S1 & S2). exists (S n).
    destruct (spur_loop n S1 S2 N1 (S n) (S n) O 2 (init_state K c) None ltac:(lra) (fun _ => eq_refl) start ltac:(lia)) as (r & Hr & Q).
    exists r. split; [exact Hr|exact Q].
  Qed.
End Spurious.

(** A calculation that ends with status [cg] and a point that yields. *)
From Coq Require Import QArith Qreals.
From Verif Require Import CCG_Hom CCG_Q CCG_Witness.
Definition crest : @qprob p3 :=
  (mkProb all none (m3 1 (1#2) (1#4) 1 (1#2) 1) (m3 (4#3) (-2#3) 0 (5#3) (-2#3) (4#3)) (v3 3 2 1) (Some (3#2)) None 0 None
    (1#10) (1#10) (1#10))%Q.
Local Open Scope R_scope.
Lemma crest_run : let c := rcfg_of pts3 crest in
  c_hard c = Some (HScalar (3 / 2)) /\ offset_control c /\ c_pentol c = 1 / 10
  /\ exists r, ccg c 50 = Ok r /\ x_success r = true /\ x_str r = Cg /\ x_tau r <> 0
     /\ x_jac r A3 = 3 / 2 /\ gap c r A3 = - (7 / 8) /\ x_jac r B3 = 5 / 4 /\ gap c r B3 = 0 /\ x_jac r C3 = 0.
Proof.
  cbv zeta. split; [reflexivity|]. split; [reflexivity|]. split; [cbn; q2r; lra|].
  destruct (exec3 crest 50 true 4 Cg (28#15) (3#2) (5#4) 0 (17#8) 2 1 0 false true true)
    as (r&H&H1&H2&H3&H4&H5&H6&H7&H8&H9&H10&H11&_).
  { vm_compute. reflexivity. }
  exists r. unfold gap. rewrite H1, H3, H4, H5, H6, H7, H8, H9, H11.
  split; [exact H|]. split; [reflexivity|]. split; [reflexivity|]. cbn. unfold lift; cbn [v3]. q2r. split; [lra|]. split; [lra|]. split; [lra|]. split; [lra|]. split; lra.
Qed.
