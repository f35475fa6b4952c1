(** * The pipeline as a whole *)
From Coq Require Import Reals ZArith Lia Lra List Arith Bool String Permutation FunctionalExtensionality.
From Verif Require Import Py FFT_Base HalfSpace_Model HalfSpace_Proofs Free_Model Free_Proofs Systems_Model Systems_Proofs
  Factory_Model Pipeline_Model Pipeline_Spec Pipeline_Proofs Pipeline_Sort.
From Coq Require Import List.
Import ListNotations.
Local Open Scope R_scope.

(** ** Extrema *)
Lemma fold_max : forall l x, (In (fold_left Rmax l x) (x :: l)) /\ forall y, In y (x :: l) -> y <= fold_left Rmax l x.
Proof.
  induction l as [|z l IH]; intros x; cbn [fold_left].
  - split; [left; reflexivity|]. intros y [<-|[]]. lra.
  - destruct (IH (Rmax x z)) as [A B]. split.
    + destruct A as [A|A]; [|right; right; exact A]. rewrite <- A. unfold Rmax. destruct (Rle_dec x z); [right; left|left]; reflexivity.
    + intros y [<-|[<-|Y]]; [| |apply B; right; exact Y]; eapply Rle_trans; [apply Rmax_l|apply B; left; reflexivity|apply Rmax_r|apply B; left; reflexivity].
Qed.
Lemma fold_min : forall l x, (In (fold_left Rmin l x) (x :: l)) /\ forall y, In y (x :: l) -> fold_left Rmin l x <= y.
Proof.
  induction l as [|z l IH]; intros x; cbn [fold_left].
  - split; [left; reflexivity|]. intros y [<-|[]]. lra.
  - destruct (IH (Rmin x z)) as [A B]. split.
    + destruct A as [A|A]; [|right; right; exact A]. rewrite <- A. unfold Rmin. destruct (Rle_dec x z); [left|right; left]; reflexivity.
    + intros y [<-|[<-|Y]]; [| |apply B; right; exact Y]; eapply Rle_trans; [apply B; left; reflexivity|apply Rmin_l|apply B; left; reflexivity|apply Rmin_r].
Qed.
Lemma amax_spec : forall a m, amax a = Ret m -> is_max a m.
Proof.
  intros a m H. unfold amax in H. destruct (aentries a) as [|x l] eqn:E; [discriminate|]. injection H as <-.
  destruct (fold_max l x) as [A B]. rewrite <- E in A, B. unfold aentries in A, B. split.
  - apply in_map_iff in A. destruct A as (k & K & I). apply in_seq in I. exists k. split; [lia|]. congruence.
  - intros k K. apply B. apply in_map. apply in_seq. lia.
Qed.
Lemma amin_spec : forall a m, amin a = Ret m -> is_min a m.
Proof.
  intros a m H. unfold amin in H. destruct (aentries a) as [|x l] eqn:E; [discriminate|]. injection H as <-.
  destruct (fold_min l x) as [A B]. rewrite <- E in A, B. unfold aentries in A, B. split.
  - apply in_map_iff in A. destruct A as (k & K & I). apply in_seq in I. exists k. split; [lia|]. congruence.
  - intros k K. apply B. apply in_map. apply in_seq. lia.
Qed.

(** ** The half-space *)
Lemma half_space_inv : forall name grid sizes sb, make_half_space name grid sizes = Ret sb ->
  sb_grid sb = grid /\ (forall n, In n grid -> n <> 0%nat)
  /\ (List.length grid = 1 \/ List.length grid = 2)%nat
  /\ (List.length sizes = List.length grid -> sb_area sb = fold_right Rmult 1 sizes / INR (size grid))
  /\ (forall f, sb_check sb f = Ret tt).
Proof.
  assert (Ext : forall sizes (grid : list nat), (List.length grid = 1 \/ List.length grid = 2)%nat -> List.length sizes = List.length grid ->
    map (fun i => nth (Nat.min i (List.length sizes - 1)) sizes 0) (seq 0 (List.length grid)) = sizes).
  { intros sizes grid [L|L] E; rewrite L in *.
    - destruct sizes as [|s0 [|? ?]]; try discriminate. reflexivity.
    - destruct sizes as [|s0 [|s1 [|? ?]]]; try discriminate. reflexivity. }
  assert (Pr : forall grid, fold_right Rmult 1 (map INR grid) = INR (size grid)).
  { induction grid as [|n g IH]; [reflexivity|]. cbn [map fold_right]. rewrite IH. unfold size. cbn [fold_right]. rewrite mult_INR. reflexivity. }
  intros name grid sizes sb H. unfold make_half_space in H. destruct (String.eqb name "periodic").
  - unfold call_periodic, half_space_kwargs in H. cbn in H.
    destruct (construct _) as [s|e] eqn:C; [|discriminate]. injection H as <-.
    destruct (construct_inv _ _ C) as [N _]. pose proof (new_inv _ _ N) as (D & _ & Z & _ & _ & _ & E). cbn [a_grid a_sizes] in *.
    unfold periodic. cbn [sb_grid sb_area sb_check]. rewrite E. cbn [h_grid]. split; [reflexivity|]. split; [exact Z|].
    split; [exact D|]. split; [|reflexivity]. intros L. unfold area_per_pt. cbn [h_sizes h_grid]. rewrite Ext, Pr by assumption. reflexivity.
  - destruct (String.eqb name "nonperiodic"); [|discriminate].
    unfold call_free, half_space_kwargs in H. cbn in H.
    destruct (free_construct _) as [s|e] eqn:C; [|discriminate]. injection H as <-.
    destruct (free_inv _ _ C) as (_ & _ & _ & Ck). unfold free_construct in C.
    destruct (new_on _ _) as [h|e] eqn:N; [|discriminate]. cbn [bind] in C.
    destruct (Nat.eqb (dim h) 1); [discriminate|]. injection C as <-.
    destruct (new_on_inv _ _ _ N) as (_ & _ & _ & _ & _ & _ & h' & N' & <-).
    pose proof (new_inv _ _ N') as (D & _ & Z & _ & _ & _ & E). cbn [a_grid a_sizes base_args fa_grid fa_sizes] in *.
    unfold free. cbn [sb_grid sb_area sb_check f_hs]. rewrite E. cbn [h_grid]. split; [reflexivity|]. split; [exact Z|].
    split; [exact D|]. split; [|reflexivity]. intros L. unfold area_per_pt. cbn [h_sizes h_grid]. rewrite Ext, Pr by assumption. reflexivity.
Qed.

Lemma size_pos : forall g, (forall n, In n g -> n <> 0%nat) -> (0 < size g)%nat.
Proof.
  induction g as [|n g IH]; intros H; [cbn; lia|]. unfold size. cbn [fold_right].
  assert (0 < size g)%nat by (apply IH; intros m M; apply H; right; exact M).
  specialize (H n (or_introl eq_refl)). unfold size in H0. nia.
Qed.

(** ** Surfaces of a run *)
Lemma surface_heights : forall a, heights (cm_surface a) = heights (cm_topography a)
  /\ sf_grid (cm_surface a) = sf_grid (cm_topography a).
Proof.
  intros a. unfold cm_surface. destruct (cm_hardness a) as [h|]; [|auto]. destruct (Rlt_dec 0 h); [|auto].
  split; [|reflexivity]. unfold heights. cbn [sf_grid sf_base sf_plastic]. f_equal.
  apply functional_extensionality; intros x; apply functional_extensionality; intros y. cbn. lra.
Qed.
Lemma surface_hardness : forall a,
  hardness_at (is_plastic_run a) (cm_surface a) = hardness_of a.
Proof.
  intros a. unfold hardness_at, hardness_of, is_plastic_run, cm_surface. destruct (cm_hardness a) as [h|]; [|reflexivity].
  destruct (Rlt_dec 0 h); reflexivity.
Qed.
Lemma surface_elastic : forall a, is_plastic_run a = false -> cm_surface a = cm_topography a.
Proof.
  intros a H. unfold is_plastic_run, cm_surface in *. destruct (cm_hardness a) as [h|]; [|reflexivity].
  destruct (Rlt_dec 0 h); [discriminate|reflexivity].
Qed.
Lemma same_refl : forall a, same_topography a a. Proof. intros; repeat split. Qed.
Lemma same_trans : forall a b c, same_topography a b -> same_topography b c -> same_topography a c.
Proof. intros a b c (A1 & A2 & A3 & A4) (B1 & B2 & B3 & B4). repeat split; congruence. Qed.
Lemma same_reset : forall r a, same_topography (reset_plastic r a) a.
Proof. intros [] a; repeat split. Qed.
Lemma hardness_same : forall p a b, same_topography a b -> hardness_at p a = hardness_at p b.
Proof. intros p a b (A1 & A2 & A3 & A4). unfold hardness_at. rewrite A3, A4. reflexivity. Qed.

Section Steps.
  Variable solver : substrate -> surface -> option R -> solver_args -> res oresult.
  Variable sb : substrate.
  Variable sizes : list R.
  Variable plastic resets : bool.
  Variable pentol : R.
  Variable maxiter : nat.
  Notation steps := (steps_of solver sb sizes plastic resets pentol maxiter).
  Notation outc := (outcome solver sb sizes plastic pentol maxiter).

  Lemma step_outcome : forall c h sf s, step_of solver sb sizes plastic resets pentol maxiter c h sf s ->
    (exists off force, outc off force s) /\ same_topography (dn_before s) sf
    /\ (plastic = false -> resets = false -> dn_before s = sf).
  Proof.
    intros [o|f|] h sf s H; cbn in H.
    - destruct H as [-> H]. split; [eauto|]. split; [apply same_refl|reflexivity].
    - destruct H as [-> H]. split; [eauto|]. split; [apply same_refl|reflexivity].
    - destruct H as [-> (t & b & _ & _ & H)]. split; [eauto|]. split; [apply same_reset|]. intros _ ->. reflexivity.
  Qed.
  Lemma steps_same : forall cs h sf ss, steps cs h sf ss -> forall s, In s ss ->
    same_topography (dn_before s) sf /\ same_topography (dn_after s) sf
    /\ exists off force, outc off force s.
  Proof.
    induction cs as [|c cs IH]; intros h sf [|s0 ss] H s I; [destruct I|destruct H|destruct I|]. destruct I as [I|I].
    - subst s0. destruct H as [H _]. destruct (step_outcome _ _ _ _ H) as ((off & force & O) & S & _).
      pose proof O as O'. destruct O' as (n0 & n1 & d & _ & _ & T & _). split; [exact S|].
      split; [exact (same_trans _ _ _ T S)|]. eauto.
    - destruct H as [H1 H2]. destruct (step_outcome _ _ _ _ H1) as ((off & force & O) & S & _).
      destruct O as (n0 & n1 & d & _ & _ & T & _). destruct (IH _ _ _ H2 s I) as (A & B & C).
      pose proof (same_trans _ _ _ T S) as TS.
      split; [exact (same_trans _ _ _ A TS)|]. split; [exact (same_trans _ _ _ B TS)|exact C].
  Qed.
  Lemma steps_area : forall cs h sf ss, steps cs h sf ss -> forall s, In s ss -> 0 <= out_area (dn_out s).
  Proof.
    intros cs h sf ss H s I. destruct (steps_same _ _ _ _ H s I) as (_ & _ & off & force & O).
    destruct O as (n0 & n1 & d & _ & _ & _ & _ & _ & _ & _ & _ & _ & _ & _ & _ & E). rewrite E.
    unfold Rdiv. apply Rmult_le_pos.
    - unfold count_positive, asum. apply Rsum_nonneg. intros k _. unfold flat, amap. cbn.
      destruct (Rlt_dec 0 _); lra.
    - destruct (size (sf_grid (dn_before s))); [cbn; rewrite Rinv_0; lra|].
      left. apply Rinv_0_lt_compat, lt_0_INR. lia.
  Qed.
End Steps.

Lemma map_ext_R : forall A (f g : A -> R) l, (forall x, In x l -> f x = g x) -> map f l = map g l.
Proof. intros. apply map_ext_in. assumption. Qed.

Lemma extend_all_records : forall ss, match extend_all None ss with
    | Some h => h_disps h = map (fun s => out_offset (dn_out s)) ss /\ h_areas h = map (fun s => out_area (dn_out s)) ss
    | None => ss = [] end.
Proof.
  intros ss. destruct (extend_all None ss) as [h|] eqn:E.
  - rewrite (extend_all_none _ _ E). auto.
  - destruct ss as [|s ss]; [reflexivity|]. unfold extend_all in E. cbn [fold_left] in E.
    fold (extend_all (Some (extend None s)) ss) in E. rewrite extend_all_some in E. discriminate.
Qed.
Lemma combine_map : forall A (f g : A -> R) l, combine (map f l) (map g l) = map (fun x => (f x, g x)) l.
Proof. induction l; cbn; [reflexivity|]. f_equal. assumption. Qed.

Lemma outcome_output : forall solver sb sizes plastic pentol maxiter off force s,
  outcome solver sb sizes plastic pentol maxiter off force s ->
  gives_output (sb_area sb) (fold_right Rmult 1 sizes) s.
Proof.
  intros solver sb sizes plastic pentol maxiter off force s (n0 & n1 & d & _ & _ & _ & _ & SH & H1 & H2 & H3 & H4 & H5 & H6 & H7 & H8).
  exists n0, n1, d. repeat (split; [assumption|]). split; [|auto 8].
  rewrite H3. unfold amap. f_equal. apply functional_extensionality; intros x; apply functional_extensionality; intros y.
  unfold Rmax. destruct (Rlt_dec _ 0), (Rle_dec 0 _); lra.
Qed.

Theorem explained : forall solver rms callback a calls r,
  contact_mechanics solver rms callback a = (calls, r) ->
  exists ss, calls = map dn_out ss
    /\ (ss = [] \/ exists sb, explains solver rms a sb ss)
    /\ (forall arr, r = Ret arr -> ss <> [] /\ List.length ss = requested a /\ arr = returned ss).
Proof.
  intros solver rms callback a calls r H. unfold contact_mechanics in H.
  destruct (mode_ok a) eqn:MO; cbn [negb] in H; [|injection H as <- <-; exists []; repeat split; auto; discriminate].
  destruct (surface_heights a) as [HH HG].
  destruct (make_half_space (substrate_name a) (sf_grid (cm_surface a)) (cm_sizes a)) as [sb|e] eqn:HS; cbn [bind] in H;
    [|injection H as <- <-; exists []; repeat split; auto; discriminate].
  destruct (build _ _ _ _ _) as [sys|e] eqn:B; cbn [bind] in H;
    [|injection H as <- <-; exists []; repeat split; auto; discriminate].
  set (plastic := is_plastic_run a) in *. set (resets := (plastic || cm_is_plastic a)%bool) in *.
  set (pt := penetration_tolerance (rms (heights (cm_surface a))) (sf_grid (cm_surface a))) in *.
  destruct (run solver sb (cm_sizes a) plastic resets pt (cm_maxiter a) callback (commands a) None [] (sy_state sys, cm_surface a))
    as [[w' calls'] r'] eqn:RUN.
  destruct (run_spec _ _ _ _ _ _ _ _ _ _ _ _ _ _ _ RUN) as (ss & ST & C & F). cbn [snd app] in *.
  rewrite HG in HS.
  destruct (half_space_inv _ _ _ _ HS) as (SG & SZ & SL & SA & SC).
  assert (CC : calls = calls') by (destruct r' as [[h|]|e]; injection H as <- _; reflexivity). rewrite C in CC.
  assert (OFFS : map (fun s => out_offset (dn_out s)) ss = map (fun s => o_offset (dn_opt s)) ss).
  { apply map_ext_in. intros s I. destruct (steps_same _ _ _ _ _ _ _ _ _ _ _ ST s I) as (_ & _ & off & force & O).
    destruct (outcome_output _ _ _ _ _ _ _ _ _ O) as (n0 & n1 & d & _ & _ & _ & _ & _ & _ & E & _). exact E. }
  exists ss. split; [exact CC|]. split.
  - right. exists sb.
    assert (PT : pt = tolerance rms a).
    { unfold pt, penetration_tolerance, tolerance, mean_nat. rewrite HH, HG. unfold Rmax. cbn zeta.
      destruct (Rle_dec _ (/ 10 ^ 12)); reflexivity. }
    assert (NTH : forall i s, nth_error ss i = Some s -> exists c, nth_error (commands a) i = Some c
      /\ step_of solver sb (cm_sizes a) plastic resets pt (cm_maxiter a) c (extend_all None (firstn i ss))
           match i with O => cm_surface a | S j => match nth_error ss j with Some t => dn_after t | None => cm_surface a end end s)
      by (intros i s; apply steps_nth; exact ST).
    assert (ARG : forall s, In s ss -> exists off force, dn_args s = mkSa off force pt (cm_maxiter a)).
    { intros s I. destruct (steps_same _ _ _ _ _ _ _ _ _ _ _ ST s I) as (_ & _ & off & force & O). destruct O as (n0 & n1 & d & E & _). eauto. }
    constructor.
    + exact HS.
    + intros s I. destruct (steps_same _ _ _ _ _ _ _ _ _ _ _ ST s I) as (S1 & S2 & off & force & n0 & n1 & d & _ & E & _).
      rewrite (hardness_same _ _ _ S1) in E. unfold plastic in E. rewrite surface_hardness in E. exact E.
    + intros s I. destruct (ARG s I) as (off & force & E). rewrite E. cbn. auto.
    + intros l E i s N. destruct (NTH i s N) as (c & CN & SO). unfold commands in CN. rewrite E in CN.
      rewrite nth_error_map in CN. destruct (nth_error l i) as [x|] eqn:L; [|discriminate]. injection CN as <-.
      cbn in SO. destruct SO as [_ (n0 & n1 & d & A & _)]. rewrite A. cbn.
      split; [apply nth_error_Some; congruence|auto].
    + intros l E i s N. destruct (NTH i s N) as (c & CN & SO). unfold commands in CN.
      assert (O : cm_offsets a = None) by (unfold mode_ok in MO; rewrite E in MO; destruct (cm_nsteps a), (cm_offsets a); congruence).
      rewrite O, E, nth_error_map in CN. destruct (nth_error l i) as [x|] eqn:L; [|discriminate]. injection CN as <-.
      cbn in SO. destruct SO as [_ (n0 & n1 & d & A & _)]. rewrite A. cbn.
      split; [apply nth_error_Some; congruence|auto].
    + intros n E i s N. destruct (NTH i s N) as (c & CN & SO). unfold commands in CN.
      assert (O : cm_offsets a = None /\ cm_pressures a = None)
        by (unfold mode_ok in MO; rewrite E in MO; destruct (cm_pressures a), (cm_offsets a); try discriminate; auto).
      destruct O as [O1 O2]. rewrite O1, O2, E in CN.
      assert (L : (i < Z.to_nat n)%nat) by (rewrite <- (repeat_length Automatic (Z.to_nat n)); apply nth_error_Some; congruence).
      assert (c = Automatic) by (eapply repeat_spec; eapply nth_error_In; exact CN). subst c.
      cbn in SO. destruct SO as [_ (top & bot & TP & BT & (n0 & n1 & d & A & _))]. rewrite A. cbn [sa_force sa_offset].
      split; [lia|]. split; [reflexivity|]. eexists. exists top, bot. split; [reflexivity|].
      split; [apply amax_spec; exact TP|]. split; [apply amin_spec; exact BT|].
      assert (I : In s ss) by (eapply nth_error_In; exact N).
      destruct (steps_same _ _ _ _ _ _ _ _ _ _ _ ST s I) as ((S1 & _) & _). rewrite S1, HG.
      pose proof (extend_all_records (firstn i ss)) as X.
      assert (FA : forall s, In s (firstn i ss) -> 0 <= out_area (dn_out s)).
      { intros s' I'. eapply steps_area; [exact ST|]. rewrite <- (firstn_skipn i ss). apply in_or_app. left. exact I'. }
      replace (map record_of (firstn i ss)) with
        (match extend_all None (firstn i ss) with Some h => combine (h_disps h) (h_areas h) | None => [] end).
      * apply next_chosen; [apply size_pos; exact SZ|]. destruct (extend_all None (firstn i ss)) as [h|]; [|exact I0 || exact Logic.I].
        destruct X as [-> ->]. rewrite !map_length. split; [reflexivity|]. intros y Y. apply in_map_iff in Y.
        destruct Y as (s' & <- & I'). apply FA. exact I'.
      * destruct (extend_all None (firstn i ss)) as [h|].
        -- destruct X as [-> ->]. rewrite combine_map. apply map_ext_in. intros s' I'. unfold record_of. f_equal.
           assert (In s' ss) by (rewrite <- (firstn_skipn i ss); apply in_or_app; left; exact I').
           destruct (steps_same _ _ _ _ _ _ _ _ _ _ _ ST s' H0) as (_ & _ & off & force & O).
           destruct (outcome_output _ _ _ _ _ _ _ _ _ O) as (m0 & m1 & d' & _ & _ & _ & _ & _ & _ & E' & _). exact E'.
        -- rewrite X. reflexivity.
    + intros s I. destruct (steps_same _ _ _ _ _ _ _ _ _ _ _ ST s I) as ((S1 & _) & (S2 & _) & _). rewrite S1, S2. auto.
    + intros EL s I. destruct (steps_same _ _ _ _ _ _ _ _ _ _ _ ST s I) as (_ & _ & off & force & n0 & n1 & d & _ & _ & _ & E & _).
      split; [apply (proj1 E); exact EL|]. intros NS.
      rewrite <- (surface_elastic a EL).
      assert (G : forall cs h sf ss, (forall c, In c cs -> c = Automatic -> resets = false) ->
        steps_of solver sb (cm_sizes a) plastic resets pt (cm_maxiter a) cs h sf ss -> forall s, In s ss -> dn_before s = sf).
      { induction cs as [|c cs IH]; intros h sf [|s0 ss'] NA H' s' I'; [destruct I'|destruct H'|destruct I'|].
        destruct H' as [H1' H2'].
        assert (B0 : dn_before s0 = sf).
        { destruct c; cbn in H1'; [apply H1'|apply H1'|]. destruct H1' as [-> _].
          rewrite (NA Automatic (or_introl eq_refl) eq_refl). reflexivity. }
        destruct I' as [<-|I']; [exact B0|].
        rewrite (IH _ _ _ (fun c' I' => NA c' (or_intror I')) H2' s' I').
        destruct (step_outcome _ _ _ _ _ _ _ _ _ _ _ H1') as ((o' & f' & m0 & m1 & d' & _ & _ & _ & E' & _) & _).
        rewrite (proj1 E' EL). exact B0. }
      eapply G; [|exact ST|exact I]. intros c CI ->. destruct NS as [NS|NS].
      * unfold commands in CI. rewrite NS in CI.
        destruct (cm_offsets a); [|destruct (cm_pressures a)]; [| |destruct CI]; apply in_map_iff in CI; destruct CI as (? & X & _); discriminate.
      * unfold resets, plastic. rewrite EL, NS. reflexivity.
    + intros PL s I. destruct (steps_same _ _ _ _ _ _ _ _ _ _ _ ST s I) as (_ & _ & off & force & n0 & n1 & d & _ & _ & _ & E & _).
      exact (proj2 E PL).
    + intros NS s N. destruct (NTH 0%nat s N) as (c & CN & SO). rewrite <- HH. f_equal.
      unfold commands in CN. rewrite NS in CN. destruct c; cbn in SO; [apply SO|apply SO|].
      apply nth_error_In in CN. destruct (cm_offsets a); [|destruct (cm_pressures a)]; [| |destruct CN];
        apply in_map_iff in CN; destruct CN as (? & X & _); discriminate.
    + intros NS i s t N1 N2. destruct (NTH (S i) t N2) as (c & CN & SO). rewrite N1 in SO.
      unfold commands in CN. rewrite NS in CN. destruct c; cbn in SO; [apply SO|apply SO|].
      apply nth_error_In in CN. destruct (cm_offsets a); [|destruct (cm_pressures a)]; [| |destruct CN];
        apply in_map_iff in CN; destruct CN as (? & X & _); discriminate.
    + intros PL NS s I. destruct (In_nth_error _ _ I) as [i N]. destruct (NTH i s N) as (c & CN & SO).
      assert (c = Automatic).
      { unfold commands in CN. unfold mode_ok in MO. destruct (cm_nsteps a) as [n|]; [|congruence].
        destruct (cm_offsets a), (cm_pressures a); try discriminate. eapply repeat_spec. eapply nth_error_In. exact CN. }
      subst c. cbn in SO. destruct SO as [E _].
      destruct (steps_same _ _ _ _ _ _ _ _ _ _ _ ST s I) as ((S1 & S2 & _) & _).
      rewrite <- HH. unfold heights. rewrite S1, S2. f_equal.
      assert (P0 : sf_plastic (dn_before s) = fun _ _ => 0) by (rewrite E; unfold reset_plastic, resets, plastic; rewrite PL; reflexivity).
      rewrite P0. unfold is_plastic_run, cm_surface in *. destruct (cm_hardness a) as [hh|]; [|discriminate].
      destruct (Rlt_dec 0 hh); [reflexivity|discriminate].
    + intros PL NS s I. destruct (In_nth_error _ _ I) as [i N]. destruct (NTH i s N) as (c & CN & SO).
      assert (c = Automatic).
      { unfold commands in CN. unfold mode_ok in MO. destruct (cm_nsteps a) as [n|]; [|congruence].
        destruct (cm_offsets a), (cm_pressures a); try discriminate. eapply repeat_spec. eapply nth_error_In. exact CN. }
      subst c. cbn in SO. destruct SO as [E _]. rewrite E. unfold resets. rewrite PL, orb_true_r. intros x y. reflexivity.
    + intros s I. destruct (steps_same _ _ _ _ _ _ _ _ _ _ _ ST s I) as (_ & _ & off & force & O).
      eapply outcome_output. exact O.
  - intros arr R'. destruct r' as [[h|]|e]; [|injection H as _ <-; discriminate|injection H as _ <-; discriminate].
    injection H as _ H. rewrite R' in H. injection H as H. subst arr. destruct (F _ eq_refl) as [L E].
    assert (NE : ss <> []) by (intros ->; discriminate). split; [exact NE|]. split.
    + rewrite L. unfold commands, requested. destruct (cm_offsets a); [apply map_length|].
      destruct (cm_pressures a); [apply map_length|]. destruct (cm_nsteps a); [apply repeat_length|reflexivity].
    + symmetry in E. rewrite (extend_all_none _ _ E). cbn [h_press h_areas h_disps h_gaps h_conv]. unfold returned.
      rewrite OFFS. reflexivity.
Qed.
