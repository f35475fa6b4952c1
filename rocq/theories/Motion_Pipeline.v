(** * The pipeline under symmetries, change of unit and of height reference *)
From Coq Require Import Reals ZArith Lia Lra List Arith Bool String FunctionalExtensionality.
From Verif Require Import Py FFT_Base HalfSpace_Model HalfSpace_Spec HalfSpace_Proofs Free_Model Systems_Model Systems_Spec Systems_Proofs Factory_Model
  Pipeline_Model Pipeline_Spec Pipeline_Proofs Pipeline_Results Contact_Model Contact_Proofs Contact_Results
  Motion_Spec Motion_Base Motion_Space Motion_Solver.
From Verif Require Pipeline_More.
From Coq Require Import List.
Import ListNotations.
Local Open Scope R_scope.

(** ** Arrays *)
Lemma moved_two : forall v n m, exists n' m', moved_grid v [n; m] = [n'; m']
  /\ ((n' = n /\ m' = m) \/ (n' = m /\ m' = n)).
Proof. intros v n m. destruct v; cbn; do 2 eexists; (split; [reflexivity|auto]). Qed.

Section Arrays.
  Variables (v : motion) (n m : nat).
  Hypothesis P1 : (0 < n)%nat.
  Hypothesis P2 : (0 < m)%nat.
  Let g' := moved_grid v [n; m].
  Let sr := source v [n; m].

  Lemma ok_old : okgrid [n; m].
  Proof. repeat split; auto. Qed.
  Lemma ok_new : okgrid g'.
  Proof. unfold g'. destruct (moved_two v n m) as (n' & m' & -> & D). repeat split; auto; unfold gx, gy; cbn; lia. Qed.
  Lemma size_new : size g' = size [n; m].
  Proof. unfold g'. destruct v; cbn; lia. Qed.
  Lemma source_in : forall x y, on_grid g' x y -> on_grid [n; m] (fst (sr x y)) (snd (sr x y)).
  Proof. intros x y [X Y]. exact (bi_in _ _ _ _ _ (source_bijective v n m P1 P2) x y X Y). Qed.
  Lemma source_onto : forall x y, on_grid [n; m] x y -> exists x' y', on_grid g' x' y' /\ sr x' y' = (x, y).
  Proof.
    intros x y [X Y]. destruct (bi_onto _ _ _ _ _ (source_bijective v n m P1 P2) x y X Y) as (x' & y' & X' & Y' & E).
    exists x', y'. split; [split; assumption|exact E].
  Qed.

  Lemma sum_moved : forall f f' c d, (forall x y, on_grid g' x y -> f' x y = c * through sr f x y + d) ->
    asum (mkArr g' f') = c * asum (mkArr [n; m] f) + INR (size [n; m]) * d.
  Proof.
    intros f f' c d H. rewrite (asum_grid g' f' ok_new), (asum_grid _ f ok_old). unfold total.
    rewrite (Rsum2_ext _ _ f' (fun x y => c * through sr f x y + d)) by (intros; apply H; split; assumption).
    assert (E0 : Rsum2 (gx g') (gy g') (through sr f) = Rsum2 n m f)
      by exact (Rsum2_bijective n m _ _ sr f (source_bijective v n m P1 P2)).
    rewrite Rsum2_plus, Rsum2_scal, E0, Rsum2_const.
    f_equal. f_equal. rewrite <- mult_INR. f_equal. pose proof size_new as E. unfold g' in *.
    destruct v; cbn in *; lia.
  Qed.
  Lemma size_pos : 0 < INR (size [n; m]).
  Proof. apply lt_0_INR. cbn. nia. Qed.
  Lemma mean_moved : forall f f' c d, (forall x y, on_grid g' x y -> f' x y = c * through sr f x y + d) ->
    amean (mkArr g' f') = c * amean (mkArr [n; m] f) + d.
  Proof.
    intros f f' c d H. unfold amean. rewrite (sum_moved f f' c d H). cbn [a_shape]. rewrite size_new. field. pose proof size_pos. lra.
  Qed.
  Lemma count_moved : forall f f' c, 0 < c -> (forall x y, on_grid g' x y -> f' x y = c * through sr f x y) ->
    count_positive (mkArr g' f') = count_positive (mkArr [n; m] f).
  Proof.
    intros f f' c C H. unfold count_positive, amap. cbn [a_shape a_val].
    rewrite (sum_moved (fun x y => if Rlt_dec 0 (f x y) then 1 else 0) _ 1 0).
    - ring.
    - intros x y G. rewrite (H x y G). unfold through. set (z := f _ _).
      destruct (Rlt_dec 0 (c * z)), (Rlt_dec 0 z); try lra; exfalso; nra.
  Qed.

  Lemma flat_on_grid : forall g f j, okgrid g -> List.length g = 2%nat -> (j < size g)%nat ->
    exists x y, on_grid g x y /\ flat (mkArr g f) j = f x y.
  Proof.
    intros g f j (_ & X & Y) L J. destruct g as [|a [|b [|? ?]]]; try discriminate.
    unfold gx, gy in *. cbn in J. cbn [nth] in X, Y. exists (j / b)%nat, (j mod b)%nat. split; [|reflexivity].
    split; unfold gx, gy; cbn [nth]; [apply Nat.div_lt_upper_bound; lia|apply Nat.mod_upper_bound; lia].
  Qed.
  Lemma on_grid_flat : forall g f x y, List.length g = 2%nat -> on_grid g x y ->
    exists j, (j < size g)%nat /\ flat (mkArr g f) j = f x y.
  Proof.
    intros g f x y L [X Y]. destruct g as [|a [|b [|? ?]]]; try discriminate. unfold gx, gy in *. cbn [nth] in X, Y.
    exists (x * b + y)%nat. split; [cbn; nia|]. unfold flat. cbn [a_shape a_val nth].
    rewrite Nat.div_add_l, Nat.div_small by lia. rewrite (Nat.add_comm (x * b) y), Nat.mod_add, Nat.mod_small by lia. f_equal; lia.
  Qed.
  Lemma length_new : List.length g' = 2%nat.
  Proof. unfold g'. destruct v; reflexivity. Qed.

  Lemma max_moved : forall f f' c, 0 < c -> (forall x y, on_grid g' x y -> f' x y = c * through sr f x y) ->
    exists t b, amax (mkArr [n; m] f) = Ret t /\ amin (mkArr [n; m] f) = Ret b
      /\ amax (mkArr g' f') = Ret (c * t) /\ amin (mkArr g' f') = Ret (c * b).
  Proof.
    intros f f' c C H.
    assert (EX : forall u, (0 < size (a_shape u))%nat -> (exists t, amax u = Ret t) /\ (exists b, amin u = Ret b)).
    { intros u S. unfold amax, amin. unfold aentries. destruct (size (a_shape u)) as [|z]; [lia|]. cbn [seq map]. split; eexists; reflexivity. }
    assert (S0 : (0 < size [n; m])%nat) by (cbn; nia).
    destruct (EX (mkArr [n; m] f) S0) as [[t T] [b Bt]]. destruct (EX (mkArr g' f')) as [[t' T'] [b' Bt']].
    { cbn [a_shape]. rewrite size_new. exact S0. }
    exists t, b. split; [exact T|]. split; [exact Bt|].
    assert (OLD : forall j, (j < size [n; m])%nat -> exists j', (j' < size g')%nat /\ flat (mkArr g' f') j' = c * flat (mkArr [n; m] f) j).
    { intros j J. destruct (flat_on_grid [n; m] f j ok_old eq_refl J) as (x & y & G & ->).
      destruct (source_onto x y G) as (x' & y' & G' & E). destruct (on_grid_flat g' f' x' y' length_new G') as (j' & J' & E').
      exists j'. split; [exact J'|]. rewrite E', (H x' y' G'). unfold through. rewrite E. reflexivity. }
    assert (NEW : forall j', (j' < size g')%nat -> exists j, (j < size [n; m])%nat /\ flat (mkArr g' f') j' = c * flat (mkArr [n; m] f) j).
    { intros j' J'. destruct (flat_on_grid g' f' j' ok_new length_new J') as (x & y & G & ->).
      destruct (on_grid_flat [n; m] f _ _ eq_refl (source_in x y G)) as (j & J & E). exists j. split; [exact J|].
      rewrite (H x y G), E. reflexivity. }
    destruct (amax_spec _ _ T) as [(j1 & J1 & E1) M1]. destruct (amax_spec _ _ T') as [(j2 & J2 & E2) M2].
    destruct (amin_spec _ _ Bt) as [(j3 & J3 & E3) M3]. destruct (amin_spec _ _ Bt') as [(j4 & J4 & E4) M4].
    cbn [a_shape] in *. rewrite T', Bt'. split; f_equal; apply Rle_antisym.
    - destruct (NEW j2 J2) as (j & J & E). specialize (M1 j J). rewrite E2, E. nra.
    - destruct (OLD j1 J1) as (j & J & E). specialize (M2 j J). rewrite E1, <- E. exact M2.
    - destruct (OLD j3 J3) as (j & J & E). specialize (M4 j J). rewrite E3, <- E. exact M4.
    - destruct (NEW j4 J4) as (j & J & E). specialize (M3 j J). rewrite E4, E. nra.
  Qed.

  Lemma slice_two : forall u N M0, a_shape u = [N; M0] -> (n <= N)%nat -> (m <= M0)%nat ->
    head_slice [n; m] u = Ret (mkArr [n; m] (a_val u)).
  Proof.
    intros u N M0 S L1 L2. unfold head_slice. rewrite S. cbn. rewrite !Nat.min_l by assumption. reflexivity.
  Qed.
End Arrays.

(** ** The choice of the next displacement *)
Section Next.
  Variable k : R.
  Hypothesis K : 0 < k.
  Definition stretch (p : R * R) : R * R := (k * fst p, snd p).
  Lemma insert_stretch : forall p l, insert (stretch p) (map stretch l) = map stretch (insert p l).
  Proof.
    intros p l. induction l as [|q l IH]; [reflexivity|]. cbn [map insert]. change (snd (stretch p)) with (snd p).
    change (snd (stretch q)) with (snd q). destruct (Rlt_dec (snd p) (snd q)); [reflexivity|]. rewrite IH. reflexivity.
  Qed.
  Lemma sort_stretch : forall l, sort_by_area (map stretch l) = map stretch (sort_by_area l).
  Proof.
    intros l. unfold sort_by_area. change (@nil (R * R)) with (map stretch []) at 1. generalize (@nil (R * R)).
    induction l as [|p l IH]; intros s; [reflexivity|]. cbn [map fold_left]. rewrite insert_stretch. apply IH.
  Qed.
  Lemma combine_stretch : forall d a, combine (map (Rmult k) d) a = map stretch (combine d a).
  Proof.
    induction d as [|x d IH]; intros a; [reflexivity|]. destruct a as [|y a]; [reflexivity|]. cbn [map combine]. rewrite IH. reflexivity.
  Qed.
  Lemma nth_stretch : forall l j, fst (nth j (map stretch l) (0, 0)) = k * fst (nth j l (0, 0)).
  Proof.
    intros l j. replace (0, 0) with (stretch (0, 0)) at 1 by (unfold stretch; cbn; f_equal; ring). rewrite map_nth. reflexivity.
  Qed.

  Definition same_history (sh : R) (h h' : history) : Prop :=
    h_disps h' = map (fun x => k * x - sh) (h_disps h) /\ h_gaps h' = map (Rmult k) (h_gaps h)
    /\ h_press h' = h_press h /\ h_areas h' = h_areas h /\ h_conv h' = h_conv h.
  Definition same_past (sh : R) (h h' : option history) : Prop :=
    match h, h' with
    | None, None => True
    | Some x, Some x' => same_history sh x x'
    | _, _ => False
    end.

  Lemma next_moved : forall top middle bot npts h h', same_past 0 h h' ->
    next_displacement (k * top) (k * middle) (k * bot) npts h' = k * next_displacement top middle bot npts h.
  Proof.
    intros top middle bot npts h h' S. destruct h as [h|], h' as [h'|]; try contradiction; [|cbn; ring].
    destruct S as (D & _ & _ & A & _).
    assert (D' : h_disps h' = map (Rmult k) (h_disps h)) by (rewrite D; apply map_ext; intros; ring).
    unfold next_displacement. rewrite D', A. destruct (h_disps h) as [|x [|y l]]; cbn [map]; [ring|ring|].
    change (k * x :: k * y :: map (Rmult k) l) with (map (Rmult k) (x :: y :: l)). rewrite combine_stretch, sort_stretch, map_map.
    rewrite !map_length.
    change (map (fun x0 => log10 (snd (stretch x0) + 1 / INR npts))) with (map (fun p : R * R => log10 (snd p + 1 / INR npts))).
    set (s := sort_by_area _). set (i := argmax _).
    rewrite !nth_stretch. destruct (Nat.eqb _ _); unfold Rdiv; ring.
  Qed.
End Next.

(** ** One calculation *)
Section Calculation.
  Variables (k sh : R) (v : motion) (n m : nat) (sb sb' : substrate) (lx ly : R).
  Hypothesis K : 0 < k.
  Hypothesis P1 : (0 < n)%nat.
  Hypothesis P2 : (0 < m)%nat.
  Hypothesis X : 0 < lx.
  Hypothesis Y : 0 < ly.
  Let g' := moved_grid v [n; m].
  Let sr := source v [n; m].
  Variables (N M0 N' M0' : nat).
  Hypothesis D0 : sb_sub sb = [N; M0] /\ (n <= N)%nat /\ (m <= M0)%nat.
  Hypothesis D1 : sb_sub sb' = [N'; M0'] /\ (gx g' <= N')%nat /\ (gy g' <= M0')%nat.
  Hypothesis TP : sb_topo sb = [n; m] /\ sb_topo sb' = g'.
  Hypothesis AR : sb_area sb' = k * k * sb_area sb.
  Hypothesis CH : (forall f, sb_check sb f = Ret tt) /\ (forall f, sb_check sb' f = Ret tt).
  Variables solver solver' : substrate -> surface -> option R -> solver_args -> res oresult.
  Hypothesis SO : forall sf sf' hd sa sa',
    same_surface k sh v n m sf sf' -> same_solver_args k sh sa sa' ->
    (sa_force sa <> None \/ sa_offset sa = None -> sh = 0) ->
    res_rel (same_result k sh v n m sb sb') (solver sb sf hd sa) (solver' sb' sf' (option_map (Rmult (k * k)) hd) sa').
  Variable plastic resets : bool.
  Variable pentol : R.
  Variable maxiter : nat.

  Lemma slices : forall r r', same_result k sh v n m sb sb' r r' ->
    head_slice [n; m] (o_x r) = Ret (mkArr [n; m] (a_val (o_x r)))
    /\ head_slice g' (o_x r') = Ret (mkArr g' (a_val (o_x r'))).
  Proof.
    intros r r' S. destruct (sr_xshape _ _ _ _ _ _ _ _ _ S) as [X1 X2]. destruct D0 as (D & L1 & L2). destruct D1 as (D' & L1' & L2').
    split; [apply (slice_two n m _ N M0); congruence|].
    destruct (moved_two v n m) as (n' & m' & E & _). unfold g' in *. rewrite E in *. unfold gx, gy in L1', L2'. cbn [nth] in *.
    apply (slice_two n' m' _ N' M0'); congruence.
  Qed.
  Lemma heights_same : forall sf sf', same_surface k sh v n m sf sf' ->
    heights sf = mkArr [n; m] (a_val (heights sf)) /\ heights sf' = mkArr g' (a_val (heights sf'))
    /\ forall x y, on_grid g' x y -> a_val (heights sf') x y = k * through sr (a_val (heights sf)) x y + sh.
  Proof.
    intros sf sf' S. destruct (ss_grid _ _ _ _ _ _ _ S) as [G0 G1]. unfold heights. cbn [a_val]. rewrite G0, G1.
    split; [reflexivity|]. split; [reflexivity|]. intros x y G.
    rewrite (ss_base _ _ _ _ _ _ _ S x y G), (ss_plastic _ _ _ _ _ _ _ S x y G). unfold through, sr. ring.
  Qed.

  Lemma gap_same : forall sf sf' r r', same_surface k sh v n m sf sf' -> same_result k sh v n m sb sb' r r' ->
    exists d d', compute_gap sb sf (o_x r) (o_offset r) = Ret (mkArr [n; m] d)
      /\ compute_gap sb' sf' (o_x r') (o_offset r') = Ret (mkArr g' d')
      /\ forall x y, on_grid g' x y -> d' x y = k * through sr d x y.
  Proof.
    intros sf sf' r r' S Q. destruct (slices r r' Q) as [S0 S1]. destruct TP as [T0 T1].
    destruct (heights_same sf sf' S) as (H0 & H1 & H2).
    unfold compute_gap. rewrite T0, T1, S0, S1. cbn [bind]. rewrite H0, H1. unfold amap. cbn [a_shape a_val].
    destruct (binop_same Rminus [n; m] (a_val (o_x r)) (fun x y => a_val (heights sf) x y + o_offset r) (ok_old n m P1 P2)) as (d & E & V).
    destruct (binop_same Rminus g' (a_val (o_x r')) (fun x y => a_val (heights sf') x y + o_offset r') (ok_new v n m P1 P2)) as (d' & E' & V').
    exists d, d'. split; [exact E|]. split; [exact E'|]. intros x y G.
    rewrite (V' x y G), (H2 x y G), (sr_x _ _ _ _ _ _ _ _ _ Q x y G), (sr_offset _ _ _ _ _ _ _ _ _ Q). unfold through, sr.
    rewrite (V _ _ (source_in v n m P1 P2 x y G)). ring.
  Qed.

  Lemma proxy_same : forall sa sa' sf sf' y y', same_surface k sh v n m sf sf' -> same_solver_args k sh sa sa' ->
    (sa_force sa <> None \/ sa_offset sa = None -> sh = 0) ->
    exists y1 y1' sf1 sf1' r r', proxy solver sb plastic sa (y, sf) = (y1, sf1, r)
      /\ proxy solver' sb' plastic sa' (y', sf') = (y1', sf1', r')
      /\ same_surface k sh v n m sf1 sf1' /\ res_rel (same_result k sh v n m sb sb') r r'.
  Proof.
    intros sa sa' sf sf' y y' S A Z.
    assert (PC : forall s0 s0' hd, s0 = solver sb sf hd sa -> s0' = solver' sb' sf' (option_map (Rmult (k * k)) hd) sa' ->
      exists y1 y1', minimize_proxy sb s0 y = (y1, s0) /\ minimize_proxy sb' s0' y' = (y1', s0')
        /\ res_rel (same_result k sh v n m sb sb') s0 s0').
    { intros s0 s0' hd E E'. pose proof (SO sf sf' hd sa sa' S A Z) as Q. rewrite <- E, <- E' in Q.
      destruct (proxy_cases sb s0 y) as [y1 Y1]. destruct (proxy_cases sb' s0' y') as [y1' Y1'].
      destruct CH as [C0 C1]. exists y1, y1'. rewrite Y1, Y1'.
      destruct s0 as [r|e], s0' as [r'|e']; cbn [res_rel] in *; try contradiction; rewrite ?C0, ?C1;
        repeat (destruct (o_success _)); auto. }
    unfold proxy. destruct plastic.
    - unfold plastic_minimize_proxy.
      destruct (PC _ _ (Some (sf_hardness sf * sf_area sf)) eq_refl eq_refl) as (y1 & y1' & E & E' & Q). cbn [option_map] in E'.
      replace (sf_hardness sf' * sf_area sf') with (k * k * (sf_hardness sf * sf_area sf))
        by (rewrite (ss_hardness _ _ _ _ _ _ _ S), (ss_area _ _ _ _ _ _ _ S); ring).
      rewrite E, E'.
      destruct (solver sb sf (Some (sf_hardness sf * sf_area sf)) sa) as [r|e];
        destruct (solver' sb' sf' (option_map (Rmult (k * k)) (Some (sf_hardness sf * sf_area sf))) sa') as [r'|e'] eqn:E2;
        cbn [option_map] in E2; rewrite E2; cbn [res_rel] in Q; try contradiction.
      2:{ do 6 eexists. split; [reflexivity|]. split; [reflexivity|]. auto. }
      rewrite (sr_success _ _ _ _ _ _ _ _ _ Q). destruct (o_success r).
      2:{ do 6 eexists. split; [reflexivity|]. split; [reflexivity|]. auto. }
      destruct (gap_same sf sf' r r' S Q) as (d & d' & G & G' & V). rewrite G, G'.
      do 6 eexists. split; [reflexivity|]. split; [reflexivity|]. split; [|exact Q].
      destruct S as [S1 S2 S3 S4 S5]. constructor; cbn [sf_grid sf_base sf_plastic sf_hardness sf_area a_val]; auto.
      intros x y0 H. rewrite (S3 x y0 H), (sr_plastic _ _ _ _ _ _ _ _ _ Q x y0 H), (V x y0 H). unfold through, sr.
      destruct (o_plastic r _ _); ring.
    - destruct (PC _ _ None eq_refl eq_refl) as (y1 & y1' & E & E' & Q). cbn [option_map] in E'. rewrite E, E'.
      do 6 eexists. split; [reflexivity|]. split; [reflexivity|]. split; [exact S|exact Q].
  Qed.

  Definition sizes' : list R := map (Rmult k) (moved_sizes v [lx; ly]).
  Lemma sizes_product : fold_right Rmult 1 sizes' = k * k * fold_right Rmult 1 [lx; ly].
  Proof. unfold sizes'. destruct v; cbn; ring. Qed.

  Definition same_step (p p' : output * history) : Prop :=
    shows_output k sh v n m (fst p) (fst p') /\ same_history k sh (snd p) (snd p').
  Definition same_outcome (c c' : state * surface * res (output * history)) : Prop :=
    same_surface k sh v n m (snd (fst c)) (snd (fst c')) /\ res_rel same_step (snd c) (snd c').

  Lemma calculation_same : forall off force h h' w w',
    same_surface k sh v n m (snd w) (snd w') -> same_past k sh h h' -> (force <> None \/ off = None -> sh = 0) ->
    same_outcome (contact_calculation solver sb [lx; ly] plastic pentol maxiter off force h w)
      (contact_calculation solver' sb' sizes' plastic (k * pentol) maxiter
         (option_map (fun x => k * x - sh) off) (option_map (Rmult (k * k)) force) h' w').
  Proof.
    intros off force h h' [y sf] [y' sf'] S H Z. cbn [snd] in S. unfold contact_calculation.
    destruct (proxy_same (mkSa off force pentol maxiter)
      (mkSa (option_map (fun x => k * x - sh) off) (option_map (Rmult (k * k)) force) (k * pentol) maxiter) sf sf' y y' S
      ltac:(repeat split) Z) as (y1 & y1' & sf1 & sf1' & r & r' & E & E' & S1 & Q).
    rewrite E, E'. destruct r as [r|e], r' as [r'|e']; cbn [res_rel] in Q; try contradiction.
    2:{ subst. split; [exact S1|reflexivity]. }
    split; [exact S1|]. cbn [snd fst].
    destruct (sr_jshape _ _ _ _ _ _ _ _ _ Q) as [J0 J1]. destruct (slices r r' Q) as [L0 L1].
    assert (JJ0 : o_jac r = mkArr [n; m] (a_val (o_jac r))) by (destruct (o_jac r); cbn in *; congruence).
    assert (JJ1 : o_jac r' = mkArr g' (a_val (o_jac r'))) by (destruct (o_jac r'); cbn in *; unfold g'; congruence).
    destruct (heights_same sf sf' S) as (H0 & H1 & H2). destruct (heights_same sf1 sf1' S1) as (H3 & H4 & H5).
    destruct (ss_grid _ _ _ _ _ _ _ S) as [G0 G1].
    rewrite J0. rewrite L0. cbn [bind].
    replace (match a_shape (o_jac r') with
       | [n0; n1] => bind (head_slice [n0; n1] (o_x r')) _
       | _ => _ end) with
      (bind (head_slice g' (o_x r')) (fun disp =>
             let load := asum (o_jac r') / fold_right Rmult 1 sizes' in
             let area := count_positive (o_jac r') / INR (size (sf_grid sf')) in
             bind (binop Rminus disp (heights sf1')) (fun d =>
             let gap := amap (fun z => if Rlt_dec (z - o_offset r') 0 then 0 else z - o_offset r') d in
             Ret (mkOut disp gap (amap (fun f => f / sb_area sb') (o_jac r')) (positive_zone (o_jac r'))
                    (o_offset r') load area,
                  mkHist (h_disps (match h' with Some h0 => h0 | None => mkHist [] [] [] [] [] end) ++ [o_offset r'])
                         (h_gaps (match h' with Some h0 => h0 | None => mkHist [] [] [] [] [] end)
                          ++ [amean disp - amean (heights sf') - o_offset r'])
                         (h_press (match h' with Some h0 => h0 | None => mkHist [] [] [] [] [] end) ++ [load])
                         (h_areas (match h' with Some h0 => h0 | None => mkHist [] [] [] [] [] end) ++ [area])
                         (h_conv (match h' with Some h0 => h0 | None => mkHist [] [] [] [] [] end) ++ [o_success r'])))))
      by (rewrite J1; unfold g'; destruct (moved_two v n m) as (n' & m' & -> & _); reflexivity).
    rewrite L1. cbn [bind].
    destruct (binop_same Rminus [n; m] (a_val (o_x r)) (a_val (heights sf1)) (ok_old n m P1 P2)) as (d & B & V).
    destruct (binop_same Rminus g' (a_val (o_x r')) (a_val (heights sf1')) (ok_new v n m P1 P2)) as (d' & B' & V').
    rewrite H3, H4, B, B'. cbn [bind res_rel]. cbv zeta.
    assert (DD : forall x y0, on_grid g' x y0 -> d' x y0 - o_offset r' = k * (through sr d x y0 - o_offset r)).
    { intros x y0 G. rewrite (V' x y0 G), (sr_x _ _ _ _ _ _ _ _ _ Q x y0 G), (H5 x y0 G), (sr_offset _ _ _ _ _ _ _ _ _ Q). unfold through, sr.
      rewrite (V _ _ (source_in v n m P1 P2 x y0 G)). ring. }
    assert (KK : 0 < k * k) by nra.
    assert (LOAD : asum (o_jac r') / fold_right Rmult 1 sizes' = asum (o_jac r) / fold_right Rmult 1 [lx; ly]).
    { rewrite JJ0, JJ1. unfold g'. rewrite (sum_moved v n m P1 P2 (a_val (o_jac r)) (a_val (o_jac r')) (k * k) 0).
      - rewrite sizes_product. cbn [fold_right]. field. repeat split; lra.
      - intros x y0 G. rewrite (sr_jac _ _ _ _ _ _ _ _ _ Q x y0 G). ring. }
    assert (AREA : count_positive (o_jac r') / INR (size (sf_grid sf')) = count_positive (o_jac r) / INR (size (sf_grid sf))).
    { rewrite G0, G1, (size_new v n m P1 P2). f_equal. rewrite JJ0, JJ1. unfold g'.
      apply (count_moved v n m P1 P2 _ _ (k * k) KK). exact (sr_jac _ _ _ _ _ _ _ _ _ Q). }
    assert (MID : amean (heights sf') = k * amean (heights sf) + sh).
    { rewrite H0, H1. apply (mean_moved v n m P1 P2). exact H2. }
    assert (DISP : amean (mkArr g' (a_val (o_x r'))) = k * amean (mkArr [n; m] (a_val (o_x r)))).
    { unfold g'. rewrite (mean_moved v n m P1 P2 (a_val (o_x r)) _ k 0); [ring|]. intros x y0 G. rewrite (sr_x _ _ _ _ _ _ _ _ _ Q x y0 G). ring. }
    split; cbn [fst snd].
    - constructor; cbn [out_disp out_gap out_pressure out_contact out_offset out_load out_area].
      + split; [reflexivity|]. split; [reflexivity|]. cbn [a_shape a_val]. intros x y0 G. rewrite (sr_x _ _ _ _ _ _ _ _ _ Q x y0 G). unfold through. ring.
      + split; [reflexivity|]. split; [reflexivity|]. unfold amap. cbn [a_shape a_val]. intros x y0 G. rewrite (DD x y0 G). unfold through, sr.
        set (z := d _ _ - _). destruct (Rlt_dec (k * z) 0), (Rlt_dec z 0); try lra; exfalso; nra.
      + unfold amap. split; [exact J0|]. split; [exact J1|]. cbn [a_shape a_val]. intros x y0 G.
        rewrite (sr_jac _ _ _ _ _ _ _ _ _ Q x y0 G), AR. unfold through. unfold Rdiv. rewrite !Rinv_mult.
        set (z := a_val (o_jac r) _ _). transitivity ((k * / k) * (k * / k) * (z * / sb_area sb)); [ring|]. rewrite Rinv_r by lra. ring.
      + unfold positive_zone. cbn [fst snd]. split; [exact J0|]. split; [exact J1|]. intros x y0 G.
        rewrite (sr_jac _ _ _ _ _ _ _ _ _ Q x y0 G). unfold through. set (z := a_val (o_jac r) _ _).
        destruct (Rlt_dec 0 (k * k * z)), (Rlt_dec 0 z); try reflexivity; exfalso; nra.
      + exact (sr_offset _ _ _ _ _ _ _ _ _ Q).
      + exact LOAD.
      + exact AREA.
    - assert (HP : same_history k sh (match h with Some h0 => h0 | None => mkHist [] [] [] [] [] end)
         (match h' with Some h0 => h0 | None => mkHist [] [] [] [] [] end)).
      { destruct h as [h|], h' as [h'|]; cbn [same_past] in H; try contradiction; [exact H|]. repeat split. }
      destruct HP as (A1 & A2 & A3 & A4 & A5).
      repeat split; cbn [h_disps h_gaps h_press h_areas h_conv]; rewrite ?map_app; cbn [map]; f_equal; try assumption; f_equal.
      + exact (sr_offset _ _ _ _ _ _ _ _ _ Q).
      + rewrite MID, DISP, (sr_offset _ _ _ _ _ _ _ _ _ Q). ring.
      + exact LOAD.
      + exact AREA.
      + exact (sr_success _ _ _ _ _ _ _ _ _ Q).
  Qed.

  Lemma reset_same : forall sf sf', same_surface k sh v n m sf sf' ->
    same_surface k sh v n m (reset_plastic resets sf) (reset_plastic resets sf').
  Proof.
    intros sf sf' S. unfold reset_plastic. destruct resets; [|exact S]. destruct S as [S1 S2 S3 S4 S5].
    constructor; cbn [sf_grid sf_base sf_plastic sf_hardness sf_area]; auto. intros x y _. unfold through. ring.
  Qed.

  Lemma next_same : sh = 0 -> forall h h' w w',
    same_surface k sh v n m (snd w) (snd w') -> same_past k sh h h' ->
    same_outcome (next_contact_step solver sb [lx; ly] plastic resets pentol maxiter h w)
      (next_contact_step solver' sb' sizes' plastic resets (k * pentol) maxiter h' w').
  Proof.
    intros Z h h' [y sf] [y' sf'] S H. cbn [snd] in S. pose proof (reset_same sf sf' S) as S1.
    unfold next_contact_step. cbn [fst snd].
    destruct (heights_same _ _ S1) as (H0 & H1 & H2).
    assert (H3 : forall x y, on_grid (moved_grid v [n; m]) x y ->
       a_val (heights (reset_plastic resets sf')) x y = k * through sr (a_val (heights (reset_plastic resets sf))) x y).
    { intros x y0 G. rewrite (H2 x y0 G), Z. ring. }
    destruct (max_moved v n m P1 P2 _ _ k K H3) as (t & b & T & Bt & T' & Bt').
    rewrite <- H0 in T, Bt. unfold g' in H1. rewrite <- H1 in T', Bt'. rewrite T, Bt, T', Bt'. cbn [bind].
    destruct (ss_grid _ _ _ _ _ _ _ S1) as [G0 G1].
    assert (MID : amean (heights (reset_plastic resets sf')) = k * amean (heights (reset_plastic resets sf))).
    { rewrite H0, H1. rewrite (mean_moved v n m P1 P2 (a_val (heights (reset_plastic resets sf))) _ k 0); [ring|].
      intros x y0 G. rewrite (H3 x y0 G). unfold sr. ring. }
    rewrite MID, G0, G1, (size_new v n m P1 P2).
    rewrite (next_moved k t _ b (size [n; m]) h h') by (rewrite <- Z; exact H).
    set (x := next_displacement _ _ _ _ _).
    pose proof (calculation_same (Some x) None h h' (y, reset_plastic resets sf) (y', reset_plastic resets sf') S1 H
      ltac:(intros [C|C]; [congruence|discriminate])) as Q.
    cbn [option_map] in Q. replace (k * x - sh) with (k * x) in Q by (rewrite Z; ring). exact Q.
  Qed.

  Definition same_command (c c' : command) : Prop :=
    match c, c' with
    | AtOffset o, AtOffset o' => o' = k * o - sh
    | AtForce f, AtForce f' => f' = k * k * f /\ sh = 0
    | Automatic, Automatic => sh = 0
    | _, _ => False
    end.

  Lemma run_same : forall cb cb', quiet cb -> quiet cb' -> forall cs cs' h h' calls calls' w w',
    Forall2 same_command cs cs' -> same_surface k sh v n m (snd w) (snd w') -> same_past k sh h h' ->
    Forall2 (shows_output k sh v n m) calls calls' ->
    match run solver sb [lx; ly] plastic resets pentol maxiter cb cs h calls w,
          run solver' sb' sizes' plastic resets (k * pentol) maxiter cb' cs' h' calls' w' with
    | (_, l, r), (_, l', r') => Forall2 (shows_output k sh v n m) l l' /\ res_rel (same_past k sh) r r'
    end.
  Proof.
    intros cb cb' QC QC'. induction cs as [|c cs IH]; intros cs' h h' calls calls' w w' CS S H L; inversion CS; subst.
    { cbn [run]. split; [exact L|exact H]. }
    rename y into c'. cbn [run].
    assert (O : same_outcome (calculation solver sb [lx; ly] plastic resets pentol maxiter c h w)
       (calculation solver' sb' sizes' plastic resets (k * pentol) maxiter c' h' w')).
    { destruct c as [o|f|], c' as [o'|f'|]; cbn [same_command] in H2; try contradiction; cbn [calculation].
      - subst o'. exact (calculation_same (Some o) None h h' w w' S H ltac:(intros [C|C]; [congruence|discriminate])).
      - destruct H2 as [-> Z]. exact (calculation_same None (Some f) h h' w w' S H (fun _ => Z)).
      - exact (next_same H2 h h' w w' S H). }
    destruct (calculation solver sb [lx; ly] plastic resets pentol maxiter c h w) as [w1 r].
    destruct (calculation solver' sb' sizes' plastic resets (k * pentol) maxiter c' h' w') as [w1' r'].
    destruct O as [S1 Q]. cbn [fst snd] in S1, Q.
    destruct r as [[o h1]|e], r' as [[o' h1']|e']; cbn [res_rel] in Q; try contradiction.
    2:{ subst. split; [exact L|reflexivity]. }
    destruct Q as [Q1 Q2]. cbn [fst snd] in Q1, Q2. rewrite QC, QC'.
    apply IH; auto. apply Forall2_app; auto.
  Qed.
End Calculation.

(** ** [contact_mechanics] *)
Lemma surface_same : forall k sh v a a' n m lx ly, same_args k sh v n m lx ly a a' ->
  same_surface k sh v n m (cm_surface a) (cm_surface a').
Proof.
  intros k sh v a a' n m lx ly S. unfold cm_surface. rewrite (ga_hardness _ _ _ _ _ _ _ _ _ S). pose proof (ga_surface _ _ _ _ _ _ _ _ _ S) as D.
  destruct (cm_hardness a) as [h|]; [|exact D]. destruct (Rlt_dec 0 h); [|exact D].
  destruct D as [D1 D2 D3 D4 D5]. constructor; cbn [sf_grid sf_base sf_plastic sf_hardness sf_area]; auto.
  - intros x y H. cbn [heights a_val]. rewrite (D2 x y H), (D3 x y H). unfold through. ring.
  - intros x y _. unfold through. ring.
Qed.

Lemma commands_same : forall k sh v n m a a' lx ly, same_args k sh v n m lx ly a a' -> (sh = 0 \/ cm_offsets a <> None) ->
  Forall2 (same_command k sh) (commands a) (commands a').
Proof.
  intros k sh v n m a a' lx ly S M. unfold commands.
  rewrite (ga_offsets _ _ _ _ _ _ _ _ _ S), (ga_pressures _ _ _ _ _ _ _ _ _ S), (ga_nsteps _ _ _ _ _ _ _ _ _ S).
  destruct (ga_sizes _ _ _ _ _ _ _ _ _ S) as [SZ SZ']. rewrite SZ, SZ'.
  destruct (cm_offsets a) as [l|]; cbn [option_map].
  - clear M. rewrite map_map. induction l as [|x l IH]; cbn [map]; constructor; [reflexivity|exact IH].
  - assert (Z : sh = 0) by (destruct M; congruence).
    destruct (cm_pressures a) as [l|].
    + clear M. induction l as [|x l IH]; cbn [map]; constructor; [|exact IH]. split; [|exact Z].
      replace (fold_right Rmult 1 (map (Rmult k) (moved_sizes v [lx; ly]))) with (k * k * fold_right Rmult 1 [lx; ly])
        by (destruct v; cbn; ring). ring.
    + destruct (cm_nsteps a) as [z|]; [|constructor]. induction (Z.to_nat z); constructor; [exact Z|assumption].
Qed.

(** Which grids are refused, and how. *)
Lemma half_space_outcome : forall name n m lx ly,
  exists e, match make_half_space name [n; m] [lx; ly] with
  | Ret _ => (name = "periodic"%string /\ (2 <= n)%nat /\ (2 <= m)%nat) \/ (name = "nonperiodic"%string /\ (1 <= n)%nat /\ (1 <= m)%nat)
  | Exc e' => e' = e /\ e = (if orb (String.eqb name "periodic") (String.eqb name "nonperiodic")
       then (if orb (Nat.eqb n 0) (Nat.eqb m 0) then ZeroDivisionError else IndexError) else KeyErr)
  end.
Proof.
  intros name n m lx ly. unfold make_half_space.
  destruct (String.eqb_spec name "periodic") as [->|N1]; cbn [orb].
  - unfold call_periodic, half_space_kwargs. cbn [kw_unknown kw_check given orb kw_young default kw_q0 kw_thick kw_poisson kw_engine].
    unfold construct, construct_on, new, new_on. cbn [a_grid a_sizes a_q0 a_thick a_poisson a_engine List.length Nat.eqb orb negb].
    unfold extend_sizes. cbn [bind]. unfold compute_steps. cbn [existsb].
    destruct n as [|n]; [cbn; eexists; split; reflexivity|].
    destruct m as [|m]; [cbn; eexists; split; reflexivity|].
    cbn [Nat.eqb orb bind].
    destruct (Req_bool_spec (1 - 0 ^ 2) 0) as [Z|Z]; [lra|]. cbn [bind].
    unfold compute_greens_function, dim. cbn [h_grid List.length Nat.eqb]. unfold greens_2d, fourier_pts. cbn [nth fst snd h_thick h_q0 at_origin].
    destruct (Nat.eqb_spec ((S n / 2 + 1) * S m) 0) as [Z'|Z']; [nia|].
    unfold at_origin. cbn [fst snd Nat.eqb andb].
    destruct (Nat.ltb_spec (S n / 2 + 1) 2); [cbn; eexists; split; reflexivity|].
    destruct (Nat.ltb_spec (S m) 2); [cbn; eexists; split; reflexivity|]. cbn [orb bind].
    exists IndexError. left. split; [reflexivity|]. split; [|lia]. destruct n; [cbn in *; lia|lia].
  - destruct (String.eqb_spec name "nonperiodic") as [->|N2]; cbn [orb].
    2:{ cbn. eexists; split; reflexivity. }
    unfold call_free, half_space_kwargs. cbn [kw_unknown kw_check given orb kw_young default kw_q0 kw_thick kw_poisson kw_engine].
    unfold free_construct, new_on. cbn [a_grid a_sizes a_q0 a_thick a_poisson a_engine base_args fa_grid fa_sizes fa_engine fa_young List.length Nat.eqb orb negb].
    unfold extend_sizes. cbn [bind]. unfold compute_steps. cbn [existsb].
    destruct n as [|n]; [cbn; eexists; split; reflexivity|].
    destruct m as [|m]; [cbn; eexists; split; reflexivity|]. cbn [Nat.eqb orb bind].
    destruct (Req_bool_spec (1 - 0 ^ 2) 0) as [Z|Z]; [lra|]. cbn [bind]. unfold dim. cbn [h_grid List.length Nat.eqb bind].
    exists IndexError. right. split; [reflexivity|]. lia.
Qed.
Lemma half_space_fails : forall name v k n m lx ly e,
  make_half_space name [n; m] [lx; ly] = Exc e ->
  make_half_space name (moved_grid v [n; m]) (map (Rmult k) (moved_sizes v [lx; ly])) = Exc e.
Proof.
  intros name v k n m lx ly e H.
  assert (K : forall n' m' lx' ly', (n' = n /\ m' = m) \/ (n' = m /\ m' = n) -> make_half_space name [n'; m'] [lx'; ly'] = Exc e).
  2:{ destruct v; cbn [moved_grid moved_sizes map]; apply K; auto. }
  intros n' m' lx' ly' D.
  destruct (half_space_outcome name n m lx ly) as (e0 & E0). rewrite H in E0. destruct E0 as [-> E0].
  destruct (half_space_outcome name n' m' lx' ly') as (e1 & E1).
  destruct (make_half_space name [n'; m'] [lx'; ly']) as [sb|e'].
  - exfalso. destruct (Pipeline_More.half_space_ok name n m lx ly) as (sb' & E & _); [|congruence].
    destruct E1 as [(? & ? & ?)|(? & ? & ?)]; [left|right]; (split; [assumption|lia]).
  - destruct E1 as [-> E1]. f_equal. rewrite E1, E0. destruct D as [[-> ->]|[-> ->]]; [reflexivity|].
    rewrite (orb_comm (Nat.eqb m 0)). reflexivity.
Qed.

Theorem pipeline_same : forall k sh v o o' rms rms' cb cb' a a' n m lx ly, 0 < k -> 0 < lx -> 0 < ly ->
  same_args k sh v n m lx ly a a' ->
  may_shift (substrate_name a) v -> (sh = 0 \/ cm_offsets a <> None) ->
  same_options k o o' -> quiet cb -> quiet cb' ->
  tolerance rms' a' = k * tolerance rms a ->
  match contact_mechanics (ccg_solver o) rms cb a, contact_mechanics (ccg_solver o') rms' cb' a' with
  | (l, r), (l', r') => Forall2 (shows_output k sh v n m) l l' /\ r' = shows_arrays k sh r
  end.
Proof.
  intros k sh v o o' rms rms' cb cb' a a' n m lx ly K X Y GA V M O Q Q' TOL.
  assert (MO : mode_ok a' = mode_ok a).
  { unfold mode_ok. rewrite (ga_offsets _ _ _ _ _ _ _ _ _ GA), (ga_pressures _ _ _ _ _ _ _ _ _ GA), (ga_nsteps _ _ _ _ _ _ _ _ _ GA).
    destruct (cm_nsteps a), (cm_offsets a), (cm_pressures a); reflexivity. }
  destruct (mode_ok a) eqn:MA.
  2:{ unfold contact_mechanics. rewrite MO, MA. cbn [negb]. split; [constructor|reflexivity]. }
  rewrite !Pipeline_More.cm_run by assumption. rewrite TOL.
  replace (substrate_name a') with (substrate_name a)
    by (unfold substrate_name; rewrite (ga_substrate _ _ _ _ _ _ _ _ _ GA), (ga_periodic _ _ _ _ _ _ _ _ _ GA); reflexivity).
  replace (is_plastic_run a') with (is_plastic_run a)
    by (unfold is_plastic_run; rewrite (ga_hardness _ _ _ _ _ _ _ _ _ GA); reflexivity).
  destruct (ss_grid _ _ _ _ _ _ _ (ga_surface _ _ _ _ _ _ _ _ _ GA)) as [G G']. destruct (ga_sizes _ _ _ _ _ _ _ _ _ GA) as [SZ SZ'].
  rewrite (ga_is_plastic _ _ _ _ _ _ _ _ _ GA), (ga_maxiter _ _ _ _ _ _ _ _ _ GA), G, G', SZ, SZ'.
  destruct (make_half_space (substrate_name a) [n; m] [lx; ly]) as [sb|e] eqn:HS.
  2:{ rewrite (half_space_fails _ v k n m lx ly e HS). split; [constructor|reflexivity]. }
  destruct (space_moves (substrate_name a) v k n m lx ly sb K X Y V HS) as (sb' & sg & B & HS' & SP). rewrite HS'.
  destruct (half_space_shapes _ _ _ _ HS) as (SG & CS & LS & I1 & I2 & P1 & P2).
  destruct (half_space_shapes _ _ _ _ HS') as (SG' & CS' & LS' & I1' & I2' & P1' & P2').
  destruct (half_space_inv _ _ _ _ HS) as (_ & _ & _ & _ & CH). destruct (half_space_inv _ _ _ _ HS') as (_ & _ & _ & _ & CH').
  assert (L2 : List.length (moved_grid v [n; m]) = 2%nat) by (destruct v; reflexivity).
  assert (TWO : forall g : list nat, List.length g = 2%nat -> g = [gx g; gy g]).
  { intros g L. destruct g as [|? [|? [|? ?]]]; try discriminate. reflexivity. }
  pose proof (run_same k sh v n m sb sb' lx ly K P1 P2 X Y (gx (sb_sub sb)) (gy (sb_sub sb)) (gx (sb_sub sb')) (gy (sb_sub sb'))
    (conj (TWO _ LS) (conj I1 I2)) (conj (TWO _ (eq_trans LS' L2)) (conj I1' I2')) (sp_topo _ _ _ _ _ _ _ SP) (sp_area _ _ _ _ _ _ _ SP) (conj CH CH')
    (ccg_solver o) (ccg_solver o')
    (fun sf sf' hd sa sa' => solver_same k sh v n m sb sb' sg B K SP CS CS' ltac:(rewrite SG; auto) ltac:(rewrite SG'; auto) (conj I1' I2') o o' sf sf' hd sa sa' O)
    (is_plastic_run a) (orb (is_plastic_run a) (cm_is_plastic a)) (tolerance rms a) (cm_maxiter a) cb cb' Q Q'
    (commands a) (commands a') None None [] [] (fresh, cm_surface a) (fresh, cm_surface (a'))
    (commands_same k sh v n m a a' lx ly GA M) (surface_same k sh v a a' n m lx ly GA) Logic.I (Forall2_nil _)) as RUN.
  unfold sizes' in RUN.
  destruct (run (ccg_solver o) sb _ _ _ _ _ _ _ _ _ _) as [[w l] r].
  destruct (run (ccg_solver o') sb' _ _ _ _ _ _ _ _ _ _) as [[w' l'] r'].
  destruct RUN as [F RR]. destruct r as [[h|]|e], r' as [[h'|]|e']; cbn [res_rel same_past] in RR; try contradiction.
  - split; [exact F|]. destruct RR as (E1 & E2 & E3 & E4 & E5). cbn [shows_arrays]. rewrite E1, E2, E3, E4, E5. reflexivity.
  - split; [exact F|reflexivity].
  - split; [exact F|]. rewrite RR. reflexivity.
Qed.
