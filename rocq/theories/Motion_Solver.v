(** * The solver under symmetries, change of unit and of height reference *)
From Coq Require Import Reals ZArith Lia Lra List Arith Bool String Permutation FunctionalExtensionality.
From Verif Require Import Py FFT_Base HalfSpace_Model HalfSpace_Spec HalfSpace_Proofs Systems_Model Systems_Proofs Factory_Model
  Pipeline_Model Pipeline_Results Contact_Model Contact_Proofs Contact_Results Motion_Spec Motion_Base Motion_Space.
From Verif Require CCG_Model CCG_Real CCG_Spec CCG_Sim.
From Coq Require Import List.
Import ListNotations.
Local Open Scope R_scope.

(** ** Points *)
Lemma NoDup_app_disjoint : forall A (l l' : list A), NoDup l -> NoDup l' -> (forall x, In x l -> ~ In x l') -> NoDup (l ++ l').
Proof.
  intros A l l' N N'. induction N as [|x l X N IH]; intros D; [exact N'|]. cbn. constructor.
  - intros H. apply in_app_or in H. destruct H as [H|H]; [exact (X H)|]. apply (D x); [left; reflexivity|exact H].
  - apply IH. intros y Y. apply D. right. exact Y.
Qed.
Lemma NoDup_prod : forall A B (l : list A) (l' : list B), NoDup l -> NoDup l' -> NoDup (list_prod l l').
Proof.
  intros A B l l' N N'. induction N as [|x l X N IH]; [constructor|]. cbn [list_prod].
  apply NoDup_app_disjoint; [|exact IH|].
  - apply FinFun.Injective_map_NoDup; [|exact N']. intros y y' E. now injection E.
  - intros p H H'. apply in_map_iff in H. destruct H as (y & <- & _). apply in_prod_iff in H'. tauto.
Qed.
Lemma points_NoDup : forall g, NoDup (points g).
Proof.
  intros g. apply (NoDup_map_inv (fun q : pt g => (px q, py q))).
  assert (E : forall l, map (fun q : pt g => (px q, py q)) (flat_map (here g) l) = filter (inside g) l).
  { induction l as [|p l IH]; [reflexivity|]. cbn [flat_map filter]. rewrite map_app, IH. unfold here.
    destruct (bool_dec (inside g p) true) as [H|H].
    - destruct p as [x y]. cbn [map px py proj1_sig fst snd app]. unfold px, py. cbn [proj1_sig fst snd].
      rewrite H. reflexivity.
    - destruct (inside g p); [congruence|reflexivity]. }
  unfold points. rewrite E. apply NoDup_filter, NoDup_prod; apply seq_NoDup.
Qed.

Lemma points_perm : forall G G' sg B, Permutation (map (carry G G' sg B) (points G')) (points G).
Proof.
  intros G G' sg B. apply NoDup_Permutation.
  - apply FinFun.Injective_map_NoDup; [|apply points_NoDup]. intros p q E.
    destruct (pt_inside _ p). destruct (pt_inside _ q).
    destruct (bi_inj _ _ _ _ _ B (px p) (py p) (px q) (py q)) as [E1 E2]; try assumption.
    + rewrite (surjective_pairing (sg (px p) (py p))), (surjective_pairing (sg (px q) (py q))).
      rewrite <- !(carry_px _ _ _ B), <- !(carry_py _ _ _ B), E. reflexivity.
    + apply pt_eq; assumption.
  - apply points_NoDup.
  - intros p. split; intros _; [apply points_all|].
    destruct (pt_inside _ p) as [Hx Hy]. destruct (bi_onto _ _ _ _ _ B _ _ Hx Hy) as (x' & y' & X & Y & E).
    apply in_map_iff. exists (at_pt G' x' y' (conj X Y)). split; [|apply points_all].
    apply pt_eq; [rewrite carry_px|rewrite carry_py]; change (px (at_pt G' x' y' (conj X Y))) with x';
      change (py (at_pt G' x' y' (conj X Y))) with y'; rewrite E; reflexivity.
Qed.

(** Sums over the grid do not depend on the numbering. *)
Lemma Rsum2_list : forall n m f, Rsum2 n m f
  = fold_right Rplus 0 (map (fun p => f (fst p) (snd p)) (list_prod (seq 0 n) (seq 0 m))).
Proof.
  intros n m f. rewrite sum_prod. cbn [fst snd]. unfold Rsum2. rewrite <- sum_seq. f_equal. apply map_ext. intros x. symmetry. apply sum_seq.
Qed.
Lemma fold_plus_perm : forall l l', Permutation l l' -> fold_right Rplus 0 l = fold_right Rplus 0 l'.
Proof. induction 1; cbn; lra. Qed.
Lemma Rsum2_bijective : forall n m n' m' s f, bijective n m n' m' s -> Rsum2 n' m' (through s f) = Rsum2 n m f.
Proof.
  intros n m n' m' s f B. rewrite !Rsum2_list.
  transitivity (fold_right Rplus 0 (map (fun p => f (fst p) (snd p)) (map (fun p => s (fst p) (snd p)) (list_prod (seq 0 n') (seq 0 m'))))).
  { rewrite map_map. reflexivity. }
  apply fold_plus_perm, Permutation_map, NoDup_Permutation.
  - assert (I : forall l, (forall p, In p l -> (fst p < n')%nat /\ (snd p < m')%nat) -> NoDup l -> NoDup (map (fun p => s (fst p) (snd p)) l)).
    { induction l as [|p l IH]; intros H N; [constructor|]. inversion N; subst. cbn. constructor.
      - intros J. apply in_map_iff in J. destruct J as (q & Q & J).
        destruct (H p (or_introl eq_refl)). destruct (H q (or_intror J)).
        destruct (bi_inj _ _ _ _ _ B (fst q) (snd q) (fst p) (snd p)); try assumption.
        apply H2. replace p with q; [exact J|]. apply injective_projections; assumption.
      - apply IH; [intros; apply H; right; assumption|assumption]. }
    apply I; [|apply NoDup_prod; apply seq_NoDup].
    intros [x y] H. apply in_prod_iff in H. rewrite !in_seq in H. cbn. lia.
  - apply NoDup_prod; apply seq_NoDup.
  - intros [x y]. split.
    + intros H. apply in_map_iff in H. destruct H as ([x' y'] & E & H). apply in_prod_iff in H. rewrite !in_seq in H. cbn [fst snd] in E.
      destruct (bi_in _ _ _ _ _ B x' y') as [H1 H2]; [lia|lia|]. rewrite E in H1, H2. cbn in H1, H2. apply in_prod; apply in_seq; lia.
    + intros H. apply in_prod_iff in H. rewrite !in_seq in H. destruct (bi_onto _ _ _ _ _ B x y) as (x' & y' & X & Y & E); [lia|lia|].
      apply in_map_iff. exists (x', y'). split; [exact E|]. apply in_prod; apply in_seq; lia.
Qed.

(** The map of points of the topography. *)
Lemma source_bijective : forall v n m, (0 < n)%nat -> (0 < m)%nat ->
  bijective n m (gx (moved_grid v [n; m])) (gy (moved_grid v [n; m])) (source v [n; m]).
Proof.
  intros v n m P1 P2. pose proof (point_bijective v n n m P1 P2) as [A1 A2 A3].
  assert (E : forall x y, on_grid (moved_grid v [n; m]) x y -> point_map v n n m x y = source v [n; m] x y).
  { intros x y [Gx Gy]. destruct v as [|i j| |]; cbn [point_map source moved_grid] in *; try reflexivity. apply mirrored_inside. exact Gx. }
  constructor.
  - intros x y X Y. rewrite <- (E x y (conj X Y)). auto.
  - intros x y x' y' X Y X' Y'. rewrite <- (E x y (conj X Y)), <- (E x' y' (conj X' Y')). auto.
  - intros x y X Y. destruct (A3 x y X Y) as (x' & y' & X' & Y' & Q). exists x', y'. rewrite <- (E x' y' (conj X' Y')). auto.
Qed.

(** ** Surfaces and results *)
Record same_result (k sh : R) (v : motion) (n m : nat) (sb sb' : substrate) (r r' : oresult) : Prop := mkSameRes {
  sr_success : o_success r' = o_success r;
  sr_xshape : a_shape (o_x r) = sb_sub sb /\ a_shape (o_x r') = sb_sub sb';
  sr_x : forall x y, on_grid (moved_grid v [n; m]) x y ->
    a_val (o_x r') x y = k * through (source v [n; m]) (a_val (o_x r)) x y;
  sr_jshape : a_shape (o_jac r) = [n; m] /\ a_shape (o_jac r') = moved_grid v [n; m];
  sr_jac : forall x y, on_grid (moved_grid v [n; m]) x y ->
    a_val (o_jac r') x y = k * k * through (source v [n; m]) (a_val (o_jac r)) x y;
  sr_offset : o_offset r' = k * o_offset r - sh;
  sr_plastic : forall x y, on_grid (moved_grid v [n; m]) x y ->
    o_plastic r' x y = through (source v [n; m]) (o_plastic r) x y }.

Definition res_rel {A} (Q : A -> A -> Prop) (x x' : res A) : Prop :=
  match x, x' with
  | Ret r, Ret r' => Q r r'
  | Exc e, Exc e' => e' = e
  | _, _ => False
  end.

Definition same_solver_args (k sh : R) (s s' : solver_args) : Prop :=
  sa_offset s' = option_map (fun x => k * x - sh) (sa_offset s)
  /\ sa_force s' = option_map (Rmult (k * k)) (sa_force s)
  /\ sa_pentol s' = k * sa_pentol s /\ sa_maxiter s' = sa_maxiter s.

Section Solver.
  Variables (k sh : R) (v : motion) (n m : nat) (sb sb' : substrate) (sg : nat -> nat -> nat * nat).
  Variable B : bijective (gx (sb_sub sb)) (gy (sb_sub sb)) (gx (sb_sub sb')) (gy (sb_sub sb')) sg.
  Hypothesis K : 0 < k.
  Hypothesis SP : same_space k v [n; m] sb sb' sg B.
  Hypothesis C0 : comp_shape sb = [n; m].
  Hypothesis C1 : comp_shape sb' = moved_grid v [n; m].
  Hypothesis G0 : (List.length (sb_grid sb) = 1 \/ List.length (sb_grid sb) = 2)%nat.
  Hypothesis G1 : (List.length (sb_grid sb') = 1 \/ List.length (sb_grid sb') = 2)%nat.
  Hypothesis I1 : (gx (moved_grid v [n; m]) <= gx (sb_sub sb'))%nat /\ (gy (moved_grid v [n; m]) <= gy (sb_sub sb'))%nat.

  Lemma size_moved : size (moved_grid v [n; m]) = size [n; m].
  Proof. destruct v; cbn; lia. Qed.

  Lemma cfg_related : forall o o' sf sf' hd sa sa',
    same_options k o o' -> same_surface k sh v n m sf sf' -> same_solver_args k sh sa sa' ->
    (sa_force sa <> None \/ sa_offset sa = None -> sh = 0) ->
    CCG_Sim.related k (k * k) sh (carry _ _ sg B)
      (solver_cfg o sb sf hd (sa_force sa) (match sa_offset sa with Some x => x | None => 0 end) (sa_pentol sa))
      (solver_cfg o' sb' sf' (option_map (Rmult (k * k)) hd) (sa_force sa') (match sa_offset sa' with Some x => x | None => 0 end) (sa_pentol sa')).
  Proof.
    intros o o' sf sf' hd sa sa' O S (A1 & A2 & A3 & A4) SH.
    constructor; [rewrite !cfg_grid; apply points_perm|..]; unfold CCG_Model.comp; try (unfold solver_cfg; cbn [CCG_Model.c_slice CCG_Model.c_masked CCG_Model.c_h CCG_Model.c_disp CCG_Model.c_force
      CCG_Model.c_hard CCG_Model.c_ext CCG_Model.c_offset CCG_Model.c_u0 CCG_Model.c_f0 CCG_Model.c_pentol CCG_Model.c_forcetol
      CCG_Model.c_thermotol CCG_Model.c_mixfac CCG_Model.c_mixdec CCG_Model.c_minmix CCG_Model.c_nsurf CCG_Model.c_bisect option_map]).
    - intros p. rewrite C0, C1, carry_px, carry_py. rewrite (sp_inside _ _ _ _ _ _ _ SP _ _ (pt_inside _ p)).
      rewrite <- surjective_pairing. reflexivity.
    - reflexivity.
    - intros p H. rewrite C0, andb_true_r in H. rewrite carry_px, carry_py, <- surjective_pairing in H.
      rewrite <- (sp_inside _ _ _ _ _ _ _ SP _ _ (pt_inside _ p)) in H.
      unfold read. rewrite carry_px, carry_py. cbn [heights a_val].
      assert (G : on_grid (moved_grid v [n; m]) (px p) (py p)).
      { unfold inside in H. apply andb_true_iff in H. destruct H as [H1 H2]. split; apply Nat.ltb_lt; assumption. }
      rewrite (ss_base _ _ _ _ _ _ _ S _ _ G), (ss_plastic _ _ _ _ _ _ _ S _ _ G), (sp_source _ _ _ _ _ _ _ SP _ _ G). unfold through. ring.
    - exact (sp_disp _ _ _ _ _ _ _ SP).
    - exact (sp_disp_t _ _ _ _ _ _ _ SP).
    - exact (sp_force _ _ _ _ _ _ _ SP).
    - destruct hd; reflexivity.
    - exact A2.
    - rewrite A1. destruct (sa_offset sa) as [x|]; cbn [option_map]; [reflexivity|]. rewrite SH by (right; reflexivity). ring.
    - reflexivity.
    - reflexivity.
    - exact A3.
    - exact (so_forcetol _ _ _ O).
    - exact (so_thermotol _ _ _ O).
    - exact (so_mixfac _ _ _ O).
    - exact (so_mixdec _ _ _ O).
    - exact (so_minmix _ _ _ O).
    - destruct (ss_grid _ _ _ _ _ _ _ S) as [-> ->]. apply size_moved.
    - exact (so_bisect _ _ _ O).
    - intros H. apply SH. left. exact H.
  Qed.

  Theorem solver_same : forall o o' sf sf' hd sa sa',
    same_options k o o' -> same_surface k sh v n m sf sf' -> same_solver_args k sh sa sa' ->
    (sa_force sa <> None \/ sa_offset sa = None -> sh = 0) ->
    res_rel (same_result k sh v n m sb sb') (ccg_solver o sb sf hd sa) (ccg_solver o' sb' sf' (option_map (Rmult (k * k)) hd) sa').
  Proof.
    intros o o' sf sf' hd sa sa' O S A SH. rewrite !solver_eq by assumption.
    pose proof (CCG_Sim.run_sim k (k * k) sh (carry _ _ sg B) K ltac:(nra) _ _ (cfg_related o o' sf sf' hd sa sa' O S A SH) (sa_maxiter sa)) as R0.
    destruct A as (_ & _ & _ & ->).
    destruct (CCG_Spec.ccg _ _) as [r|e], (CCG_Spec.ccg _ _) as [r'|e']; cbn [CCG_Sim.rrel] in R0; try contradiction; cbn [res_rel].
    2:{ now subst. }
    destruct R0 as [X J _ PL _ OF SU _ _ _ _ _ _ _].
    assert (IN : forall x y, on_grid (moved_grid v [n; m]) x y -> on_grid (sb_sub sb') x y) by (intros x y [H1 H2]; split; lia).
    assert (W : forall A (d : A) f x y, on_grid (moved_grid v [n; m]) x y ->
      write (sb_sub sb') d (fun q => f (carry _ _ sg B q)) x y = through (source v [n; m]) (write (sb_sub sb) d f) x y).
    { intros A d f x y G. rewrite write_carry by (apply IN; exact G). unfold through. rewrite (sp_source _ _ _ _ _ _ _ SP _ _ G). reflexivity. }
    constructor; cbn [result_object o_success o_x o_jac o_offset o_plastic a_shape a_val]; auto.
    - intros x y G. rewrite <- W by exact G. rewrite !(write_in _ _ _ _ _ _ (IN _ _ G)). apply X.
    - intros x y G. rewrite <- W by exact G. rewrite !(write_in _ _ _ _ _ _ (IN _ _ G)). apply J.
    - intros x y G. rewrite PL. destruct (CCG_Model.x_plastic r) as [z|]; cbn [option_map]; [apply W; exact G|reflexivity].
  Qed.
End Solver.
