(** * The command line as a whole *)
From Coq Require Import Reals ZArith Lia Lra List Arith Bool String Ascii Permutation Decimal DecimalString DecimalNat FunctionalExtensionality.
From Verif Require Import Py FFT_Base HalfSpace_Model HalfSpace_Proofs Free_Model Free_Proofs Systems_Model Systems_Proofs Factory_Model
  Pipeline_Model Pipeline_Spec Pipeline_Proofs Pipeline_Sort Pipeline_Results Pipeline_More Pipeline_Out
  HardWall_Model HardWall_Spec HardWall_Proofs.
From Verif Require HalfSpace_Witness.
From Coq Require Import List.
Import ListNotations.
Local Open Scope R_scope.

(** ** Strings *)
Fixpoint join_comma (l : list string) : string :=
  match l with
  | [] => EmptyString
  | [s] => s
  | s :: l' => (s ++ String "," (join_comma l'))%string
  end.
Lemma split_nonempty : forall s, split_comma s <> [].
Proof.
  destruct s as [|c s]; [discriminate|]. cbn. destruct (Ascii.eqb c ","); [discriminate|]. destruct (split_comma s); discriminate.
Qed.
Lemma split_join : forall s, join_comma (split_comma s) = s /\ forall x, In x (split_comma s) -> no_comma x.
Proof.
  induction s as [|c s [IH1 IH2]]; [split; [reflexivity|intros x [<-|[]]; exact I]|]. cbn [split_comma].
  pose proof (split_nonempty s) as NE. destruct (Ascii.eqb_spec c ",") as [->|Q].
  - split; [destruct (split_comma s); [congruence|cbn [join_comma String.append]; cbn [join_comma] in IH1; rewrite IH1; reflexivity]|].
    intros x [<-|I']; [exact I|auto].
  - destruct (split_comma s) as [|t l]; [congruence|]. split.
    + destruct l as [|u l]; cbn [join_comma String.append] in *; rewrite IH1; reflexivity.
    + intros x [<-|I']; [split; [exact Q|apply IH2; left; reflexivity]|apply IH2; right; exact I'].
Qed.
Lemma split_unique : forall l, l <> [] -> (forall x, In x l -> no_comma x) -> split_comma (join_comma l) = l.
Proof.
  assert (A : forall s, no_comma s -> split_comma s = [s]).
  { induction s as [|c s IH]; intros H; [reflexivity|]. destruct H as [H1 H2]. cbn. destruct (Ascii.eqb_spec c ","); [congruence|].
    rewrite IH by exact H2. reflexivity. }
  assert (B : forall s t, no_comma s -> split_comma (s ++ String "," t) = s :: split_comma t).
  { induction s as [|c s IH]; intros t H; [reflexivity|]. destruct H as [H1 H2]. cbn. destruct (Ascii.eqb_spec c ","); [congruence|].
    rewrite IH by exact H2. reflexivity. }
  induction l as [|s l IH]; intros NE H; [congruence|]. destruct l as [|t l].
  - cbn [join_comma]. apply A. apply H. left. reflexivity.
  - change (join_comma (s :: t :: l)) with (s ++ String "," (join_comma (t :: l)))%string. rewrite B by (apply H; left; reflexivity).
    rewrite IH; [reflexivity|discriminate|]. intros x I'. apply H. right. exact I'.
Qed.

(** ** Equally spaced values *)
Lemma nth_error_same : forall A (l l' : list A), (forall i, nth_error l i = nth_error l' i) -> l = l'.
Proof.
  induction l as [|x l IH]; intros [|x' l'] H; [reflexivity|discriminate (H 0%nat)|discriminate (H 0%nat)|].
  pose proof (H 0%nat) as H0. injection H0 as ->. f_equal. apply IH. intros i. exact (H (S i)).
Qed.
Lemma linspace_ok : forall lo hi n l, linspace_to lo hi n = Ret l -> equally_spaced lo hi n l.
Proof.
  intros lo hi n l H. unfold linspace_to in H. destruct (Z.ltb_spec n 0); [discriminate|].
  destruct (Z.eqb_spec n 1) as [->|N1].
  - injection H as <-. split; [reflexivity|]. split; [intros x X; injection X as <-; reflexivity|].
    split; [intros; lia|]. intros [|i] x y z X Y; discriminate.
  - set (N := Z.to_nat n) in *. assert (NN : n = Z.of_nat N) by lia. injection H as <-. unfold equally_spaced. rewrite map_length, seq_length.
    set (g := fun k : nat => lo + INR k * ((hi - lo) / INR (N - 1))).
    assert (G : forall i x, nth_error (map g (seq 0 N)) i = Some x -> (i < N)%nat /\ x = g i).
    { intros i x X. assert (i < N)%nat.
      { rewrite <- (seq_length N 0), <- (map_length g). apply nth_error_Some. rewrite X. discriminate. }
      split; [exact H|]. rewrite nth_error_nth' with (d := g 0%nat) in X by (rewrite map_length, seq_length; exact H).
      injection X as <-. rewrite map_nth. rewrite seq_nth by exact H. reflexivity. }
    split; [lia|]. split; [intros x X; apply G in X; destruct X as [_ ->]; unfold g; cbn; lra|]. split.
    + intros x N2 X. apply G in X. destruct X as [_ ->]. unfold g. field. apply not_0_INR. lia.
    + intros i x y z X Y Z0. apply G in X, Y, Z0. destruct X as [_ ->], Y as [_ ->], Z0 as [_ ->]. unfold g. rewrite !S_INR. ring.
Qed.
Lemma spaced_unique : forall lo hi n l l', equally_spaced lo hi n l -> equally_spaced lo hi n l' -> l = l'.
Proof.
  intros lo hi n l l' (L & A & B & C) (L' & A' & B' & C').
  assert (LL : List.length l = List.length l') by lia.
  (* the spacing *)
  assert (P : forall l, (forall i x y z, nth_error l i = Some x -> nth_error l (S i) = Some y -> nth_error l (S (S i)) = Some z -> z - y = y - x) ->
     forall x y, nth_error l 0 = Some x -> nth_error l 1 = Some y -> forall i z, nth_error l i = Some z -> z = x + INR i * (y - x)).
  { clear. intros l C x y X Y. assert (G : forall i z w, nth_error l i = Some z -> nth_error l (S i) = Some w -> z = x + INR i * (y - x) /\ w - z = y - x).
    { induction i as [|i IH]; intros z w Z W.
      - rewrite X in Z. rewrite Y in W. injection Z as <-. injection W as <-. cbn. split; lra.
      - assert (exists v, nth_error l i = Some v) as [v V].
        { destruct (nth_error l i) eqn:E; [eauto|]. exfalso. apply nth_error_None in E. assert (S i < List.length l)%nat by (apply nth_error_Some; rewrite Z; discriminate). lia. }
        destruct (IH v z V Z) as [E1 E2]. pose proof (C i v z w V Z W). rewrite S_INR. split; lra. }
    intros [|i] z Z; [rewrite X in Z; injection Z as <-; cbn; lra|].
    assert (exists v, nth_error l i = Some v) as [v V].
    { destruct (nth_error l i) eqn:E; [eauto|]. exfalso. apply nth_error_None in E. assert (S i < List.length l)%nat by (apply nth_error_Some; rewrite Z; discriminate). lia. }
    destruct (G i v z V Z). rewrite S_INR. lra. }
  destruct l as [|x [|y l]]; destruct l' as [|x' [|y' l']]; try discriminate; [reflexivity| |].
  - rewrite (A x eq_refl), (A' x' eq_refl). reflexivity.
  - set (k := List.length (x :: y :: l)) in *.
    assert (exists z, nth_error (x :: y :: l) (k - 1) = Some z) as [z Z].
    { destruct (nth_error (x :: y :: l) (k - 1)) eqn:E; [eauto|]. apply nth_error_None in E. fold k in E. assert (k = S (S (List.length l)))%nat by reflexivity. lia. }
    assert (exists z, nth_error (x' :: y' :: l') (k - 1) = Some z) as [z' Z'].
    { destruct (nth_error (x' :: y' :: l') (k - 1)) eqn:E; [eauto|]. apply nth_error_None in E. assert (k = S (S (List.length l)))%nat by reflexivity. lia. }
    assert (K : k = S (S (List.length l))) by reflexivity.
    assert (z = hi) by (apply B; [lia|exact Z]). assert (z' = hi) by (apply B'; [lia|rewrite <- LL; exact Z']).
    pose proof (A x eq_refl) as X0. pose proof (A' x' eq_refl) as X0'.
    pose proof (P _ C x y eq_refl eq_refl _ _ Z) as Q. pose proof (P _ C' x' y' eq_refl eq_refl _ _ Z') as Q'.
    assert (I0 : INR (k - 1) <> 0) by (apply not_0_INR; lia).
    assert (S0 : y - x = y' - x').
    { apply (Rmult_eq_reg_l (INR (k - 1))); [|exact I0]. lra. }
    apply nth_error_same. intros i.
    destruct (nth_error (x :: y :: l) i) eqn:E1; destruct (nth_error (x' :: y' :: l') i) eqn:E2; try reflexivity.
    + rewrite (P _ C x y eq_refl eq_refl _ _ E1), (P _ C' x' y' eq_refl eq_refl _ _ E2), S0. f_equal. lra.
    + apply nth_error_None in E2. assert (i < k)%nat by (apply nth_error_Some; rewrite E1; discriminate). lia.
    + apply nth_error_None in E1. fold k in E1. assert (i < List.length (x' :: y' :: l'))%nat by (apply nth_error_Some; rewrite E2; discriminate). lia.
Qed.
Lemma linspace_complete : forall lo hi n l, equally_spaced lo hi n l -> linspace_to lo hi n = Ret l.
Proof.
  intros lo hi n l H. destruct (linspace_to lo hi n) as [l'|e] eqn:E.
  - f_equal. apply linspace_ok in E. eapply spaced_unique; eauto.
  - destruct H as [L _]. unfold linspace_to in E. destruct (Z.ltb_spec n 0); [lia|]. destruct (n =? 1)%Z; discriminate.
Qed.

Lemma pressures_asked : forall float_of int_of a, hw_displacement a = None -> forall o,
  pressures_of float_of int_of a = Ret o <-> asked float_of int_of a o.
Proof.
  intros float_of int_of a D o. unfold pressures_of. rewrite D. cbn [given]. split.
  - intros H. destruct (hw_pressure a) as [s|] eqn:P.
    + assert (H' : match split_comma s with
         | [x] => bind (float_of x) (fun x => Ret (Some [x]))
         | [x; y; n] => bind (float_of x) (fun x => bind (float_of y) (fun y => bind (int_of n) (fun n =>
                        bind (linspace_to x y n) (fun l => Ret (Some l)))))
         | _ => Exc SystemExit
         end = Ret o) by (destruct (hw_pressure_file a); exact H). clear H.
      destruct (split_join s) as [J NC]. destruct (split_comma s) as [|x [|y [|z [|? ?]]]] eqn:S; try discriminate.
      * apply bindRet in H'. destruct H' as (v & V & H'). injection H' as <-. cbn in J. subst x.
        eapply AskedOne; eauto. apply NC. left. reflexivity.
      * apply bindRet in H'. destruct H' as (v & V & H'). apply bindRet in H'. destruct H' as (w & W & H').
        apply bindRet in H'. destruct H' as (n & N & H'). apply bindRet in H'. destruct H' as (l & L & H'). injection H' as <-.
        apply linspace_ok in L. eapply AskedRange with (s0 := x) (s1 := y) (s2 := z); eauto.
        -- rewrite P, <- J. reflexivity.
        -- apply NC; left; reflexivity.
        -- apply NC; right; left; reflexivity.
        -- apply NC; right; right; left; reflexivity.
    + destruct (hw_pressure_file a) as [[l|e]|] eqn:F; try discriminate.
      * injection H as <-. apply AskedFile; assumption.
      * injection H as <-. apply AskedNone; assumption.
  - intros H. destruct H as [P F|s x P NC X|s0 s1 s2 x y n l P N0 N1 N2 X Y N L|l P F].
    + rewrite P, F. reflexivity.
    + rewrite P. assert (S : split_comma s = [s]).
      { apply (split_unique [s]); [discriminate|]. intros z [<-|[]]. exact NC. }
      rewrite S, X. destruct (hw_pressure_file a); reflexivity.
    + rewrite P. assert (S : split_comma (s0 ++ "," ++ s1 ++ "," ++ s2) = [s0; s1; s2]).
      { apply (split_unique [s0; s1; s2]); [discriminate|]. intros z [<-|[<-|[<-|[]]]]; assumption. }
      rewrite S, X, Y, N. cbn [bind]. rewrite (linspace_complete _ _ _ _ L). destruct (hw_pressure_file a); reflexivity.
    + rewrite P, F. reflexivity.
Qed.

(** ** File names *)
Fixpoint has_dot (s : string) : bool :=
  match s with EmptyString => false | String c s' => orb (Ascii.eqb c ".") (has_dot s') end.
Lemma uint_no_dot : forall u, has_dot (NilEmpty.string_of_uint u) = false.
Proof. induction u; cbn; auto. Qed.
Lemma has_dot_app : forall s t, has_dot (s ++ t) = orb (has_dot s) (has_dot t).
Proof. induction s as [|c s IH]; intros t; [reflexivity|]. cbn. rewrite IH, orb_assoc. reflexivity. Qed.
Lemma last_dot : forall s s' t t', has_dot t = false -> has_dot t' = false ->
  (s ++ "." ++ t = s' ++ "." ++ t')%string -> s = s' /\ t = t'.
Proof.
  induction s as [|c s IH]; intros [|c' s'] t t' T T' H.
  - injection H as <-. auto.
  - cbn in H. injection H as <- H. exfalso. rewrite H, has_dot_app in T. cbn in T. rewrite orb_true_r in T. discriminate.
  - cbn in H. injection H as -> H. exfalso. rewrite <- H, has_dot_app in T'. cbn in T'. rewrite orb_true_r in T'. discriminate.
  - cbn in H. injection H as <- H. destruct (IH s' t t' T T' H) as [-> ->]. auto.
Qed.
Lemma decimal_inj : forall i j, decimal i = decimal j -> i = j.
Proof.
  intros i j H. unfold decimal in H. apply (f_equal NilEmpty.uint_of_string) in H. rewrite !NilEmpty.usu in H.
  injection H as H. rewrite <- (Unsigned.of_to i), <- (Unsigned.of_to j), H. reflexivity.
Qed.
Lemma names_distinct : forall fn fn' i j, file_name false fn i = file_name false fn' j -> fn = fn' /\ i = j.
Proof.
  intros fn fn' i j H. unfold file_name, suffix in H.
  destruct (last_dot fn fn' (decimal i) (decimal j)) as [-> D]; [apply uint_no_dot|apply uint_no_dot|exact H|].
  split; [reflexivity|]. apply decimal_inj. exact D.
Qed.
Lemma name_single : forall fn i, file_name true fn i = fn.
Proof. intros fn i. unfold file_name, suffix. induction fn as [|c s IH]; [reflexivity|]. cbn. rewrite IH. reflexivity. Qed.

(** ** The whole program *)
Section Main.
  Variable float_of : string -> res R.
  Variable int_of : string -> res Z.
  Variable detrend : string -> surface -> res surface.
  Variable load : option string -> res scanned.
  Variable file_unit : option string.
  Variable solver : substrate -> surface -> option R -> option R -> option R -> option R -> nat -> res oresult.
  Variable active : surface -> option R -> option R -> zone.
  Notation main := (hw_main float_of int_of detrend load file_unit solver active).
  Notation read := (read_surface detrend load file_unit).

  Lemma main_run : forall a ev r, main a = (ev, r) -> hw_displacement a = None ->
    (ev = [] /\ exists e, r = Exc e)
    \/ exists t sb young y o, read a = Ret t /\ hw_substrate a t = Ret (sb, young) /\ hw_system a t sb = Ret y
       /\ asked float_of int_of a o
       /\ hw_run solver active sb young (sc_sizes t) (surface_unit a file_unit) a (snd (plan o)) (fst (plan o)) 0 [] (y, sc_surface t) = (ev, r).
  Proof.
    intros a ev r H D. unfold hw_main in H.
    destruct (read a) as [t|e] eqn:Rd; [|injection H as <- <-; left; split; [reflexivity|eexists; reflexivity]]. cbn [bind] in H.
    destruct (hw_substrate a t) as [[sb young]|e] eqn:Sb; [|injection H as <- <-; left; split; [reflexivity|eexists; reflexivity]]. cbn [bind fst snd] in H.
    destruct (hw_system a t sb) as [y|e] eqn:Sy; [|injection H as <- <-; left; split; [reflexivity|eexists; reflexivity]]. cbn [bind] in H.
    destruct (pressures_of float_of int_of a) as [o|e] eqn:P; [|injection H as <- <-; left; split; [reflexivity|eexists; reflexivity]]. cbn [bind fst snd] in H.
    right. exists t, sb, young, y, o. split; [reflexivity|]. split; [exact Sb|]. split; [exact Sy|].
    split; [apply pressures_asked; assumption|]. rewrite D in H. destruct o as [l|]; exact H.
  Qed.

  Lemma main_displacement : forall a d, hw_displacement a = Some d -> exists e, main a = ([], Exc e).
  Proof.
    intros a d D. unfold hw_main.
    destruct (read a) as [t|e]; [|eexists; reflexivity]. cbn [bind].
    destruct (hw_substrate a t) as [[sb young]|e]; [|eexists; reflexivity]. cbn [bind fst snd].
    destruct (hw_system a t sb) as [y|e]; [|eexists; reflexivity]. cbn [bind].
    unfold pressures_of. rewrite D. cbn [given].
    assert (X : exists e, displacement_run float_of d = Exc e).
    { unfold displacement_run. destruct (split_comma d) as [|x [|y0 [|z [|? ?]]]]; try (eexists; reflexivity).
      - destruct (float_of x); eexists; reflexivity.
      - destruct (float_of x); [|eexists; reflexivity]. cbn [bind]. destruct (float_of y0); [|eexists; reflexivity]. cbn [bind].
        destruct (float_of z); eexists; reflexivity. }
    destruct X as [e X].
    destruct (hw_pressure a), (hw_pressure_file a); cbn [bind]; try (eexists; reflexivity).
    rewrite X. eexists; reflexivity.
  Qed.
End Main.

(** ** Success *)
Section Success.
  Variable solver : substrate -> surface -> option R -> option R -> option R -> option R -> nat -> res oresult.
  Variable active : surface -> option R -> option R -> zone.
  Variable sb : substrate.
  Variable young : R.
  Variable sizes : list R.
  Variable unit : string.
  Variable a : hw_args.
  Variable n m : nat.
  Hypothesis N : (0 < n)%nat.
  Hypothesis M : (0 < m)%nat.
  Hypothesis TOPO : sb_topo sb = [n; m].
  Hypothesis CHECK : forall f, sb_check sb f = Ret tt.
  (** The calls that are made, and the surface of an elastic run. *)
  Variable allowed : option R -> option R -> Prop.
  Variable sf0 : surface.
  Definition surface_ok (sf : surface) : Prop := sf_grid sf = [n; m] /\ (is_plastic a = false -> sf = sf0).
  Hypothesis SOLVES : forall sf off force, surface_ok sf -> allowed off force -> exists r n' m',
    solver sb sf (if is_plastic a then Some (sf_hardness sf * sf_area sf) else None) off force (hw_pentol a) (hw_maxiter a) = Ret r
    /\ a_shape (o_jac r) = [n; m] /\ a_shape (o_x r) = [n'; m'] /\ (n <= n')%nat /\ (m <= m')%nat.

  Lemma hw_proxy_ok : forall off force y sf, surface_ok sf -> allowed off force ->
    exists y' sf' r n' m', hw_proxy solver sb a off force (y, sf) = (y', sf', Ret r)
      /\ surface_ok sf' /\ a_shape (o_jac r) = [n; m]
      /\ a_shape (o_x r) = [n'; m'] /\ (n <= n')%nat /\ (m <= m')%nat.
  Proof.
    intros off force y sf GO AL. destruct (SOLVES sf off force GO AL) as (r & n' & m' & S & J & X & L1 & L2). destruct GO as [G GE].
    unfold surface_ok in *. unfold hw_proxy, proxy. destruct (is_plastic a).
    - unfold plastic_minimize_proxy. cbn [sa_offset sa_force sa_maxiter].
      match goal with |- context [minimize_proxy sb ?s y] => destruct (proxy_cases sb s y) as [y' E] end.
      rewrite E, S. destruct (o_success r) eqn:SU.
      + rewrite CHECK, SU. unfold compute_gap. rewrite TOPO, (slice_ok n m n' m' _ X L1 L2). cbn [bind].
        unfold amap, heights. cbn [a_shape a_val]. rewrite G.
        destruct (binop_ok Rminus n m (a_val (o_x r)) (fun x y0 => sf_base sf x y0 + sf_plastic sf x y0 + o_offset r)) as [d D].
        rewrite D. do 3 eexists. exists n', m'. split; [reflexivity|]. split; [split; [cbn [sf_grid]; first [exact G|reflexivity]|discriminate]|]. auto.
      + rewrite SU. exists y', sf, r, n', m'. auto 7.
    - cbn [sa_offset sa_force sa_maxiter].
      match goal with |- context [minimize_proxy sb ?s y] => destruct (proxy_cases sb s y) as [y' E] end.
      rewrite E, S. exists y', sf, r, n', m'. destruct (o_success r); [rewrite CHECK|]; auto 7.
  Qed.

  Definition call_ok (c : hw_command) : Prop :=
    match c with Pressure p => allowed None (Some (p * total sizes)) | Next => forall x, allowed (Some x) None end.
  Lemma hw_step_ok : forall c h y sf, surface_ok sf -> call_ok c ->
    exists y' sf' o h', hw_step solver active sb sizes a c h (y, sf) = (y', sf', Ret (o, h')) /\ surface_ok sf'
      /\ a_shape (so_u o) = [n; m].
  Proof.
    intros [p|] h y sf GO AL; cbn [hw_step]; cbn [call_ok] in AL; pose proof (proj1 GO) as G.
    - unfold pressure_step. destruct (hw_proxy_ok None (Some (p * total sizes)) y sf GO AL) as (y' & sf' & r & n' & m' & P & G' & J & X & L1 & L2).
      rewrite P. unfold fields. rewrite J, (slice_ok n m n' m' _ X L1 L2). cbn [bind].
      do 4 eexists. split; [reflexivity|]. split; [exact G'|reflexivity].
    - unfold next_step. cbn [snd].
      assert (A : exists t, amax (heights sf) = Ret t /\ exists b, amin (heights sf) = Ret b).
      { unfold amax, amin, aentries, heights. cbn [a_shape]. rewrite G. unfold size. cbn [fold_right].
        destruct (n * (m * 1))%nat eqn:Z; [nia|]. cbn [seq map]. eexists. split; [reflexivity|]. eexists. reflexivity. }
      destruct A as (t & -> & b & ->). cbn [bind].
      match goal with |- context [hw_proxy solver sb a ?o None _] => destruct (hw_proxy_ok o None y sf GO (AL _)) as (y' & sf' & r & n' & m' & P & G' & J & X & L1 & L2) end.
      rewrite P. unfold fields. rewrite J, (slice_ok n m n' m' _ X L1 L2). cbn [bind].
      do 4 eexists. split; [reflexivity|]. split; [exact G'|reflexivity].
  Qed.
  Lemma emit_ok : forall single i sf o, sf_grid sf = [n; m] -> a_shape (so_u o) = [n; m] ->
    exists ev, emit young sizes unit a single i sf o = (ev, Ret tt).
  Proof.
    intros single i sf o G U. unfold emit. destruct (dump young sizes unit sf (so_u o) (so_f o) (so_offset o)) as [hd r].
    destruct (save (hw_contact_fn a) _ _ _ _) as [e1 m1]. destruct (save (hw_pressure_fn a) _ _ _ _) as [e2 m2].
    destruct (save (hw_displ_fn a) _ _ _ _) as [e3 m3]. destruct (hw_gap_fn a); [|eexists; reflexivity].
    unfold binop, heights. cbn [a_shape]. rewrite U, G, !bext_refl. eexists. reflexivity.
  Qed.
  Lemma hw_run_ok : forall single cs i h y sf, surface_ok sf -> (forall c, In c cs -> call_ok c) ->
    exists ev, hw_run solver active sb young sizes unit a single cs i h (y, sf) = (ev, Ret tt).
  Proof.
    intros single. induction cs as [|c cs IH]; intros i h y sf G AL; [eexists; reflexivity|]. cbn [hw_run].
    destruct (hw_step_ok c h y sf G (AL c (or_introl eq_refl))) as (y' & sf' & o & h' & St & G' & U). rewrite St. cbn [snd].
    destruct (emit_ok single i sf' o (proj1 G') U) as [ev E]. rewrite E.
    destruct (IH (S i) h' y' sf' G' (fun c0 Q => AL c0 (or_intror Q))) as [ev' E']. rewrite E'. eexists. reflexivity.
  Qed.
End Success.

Lemma hw_system_ok : forall a t sb y, hw_system a t sb = Ret y -> y = fresh /\ sb_grid sb = sf_grid (sc_surface t).
Proof.
  intros a t sb y H. unfold hw_system, build, make_system_args in H. cbn [open_arg bind tp_sizes tp_surface fst snd] in H.
  unfold make in H. destruct (shape_eqb (sf_grid (sc_surface t)) (sb_grid sb)) eqn:E; [|discriminate].
  cbn in H. injection H as <-. apply shape_eqb_spec in E. auto.
Qed.
Lemma hw_system_same : forall a t sb, sb_grid sb = sf_grid (sc_surface t) -> hw_system a t sb = Ret fresh.
Proof.
  intros a t sb E. unfold hw_system, build, make_system_args. cbn [open_arg bind tp_sizes tp_surface fst snd].
  unfold make. rewrite E, shape_eqb_refl. reflexivity.
Qed.

(** ** The substrate *)
Lemma hw_substrate_inv : forall a t sb young n m, hw_substrate a t = Ret (sb, young) -> sf_grid (sc_surface t) = [n; m] ->
  sb_grid sb = [n; m] /\ sb_topo sb = [n; m] /\ (0 < n)%nat /\ (0 < m)%nat /\ (forall f, sb_check sb f = Ret tt).
Proof.
  intros a t sb young n m H G. unfold hw_substrate in H. rewrite G in H. destruct (String.eqb (hw_boundary a) "periodic").
  - unfold call_periodic in H. cbn in H. destruct (construct _) as [s|e] eqn:C; [|discriminate]. injection H as <- _.
    destruct (construct_inv _ _ C) as [N _]. pose proof (new_inv _ _ N) as (D & _ & Z & _ & _ & _ & E). cbn [a_grid a_sizes] in *.
    unfold periodic. cbn [sb_grid sb_topo sb_area sb_check]. rewrite E. cbn [h_grid]. split; [reflexivity|]. split; [reflexivity|].
    pose proof (Z n (or_introl eq_refl)). pose proof (Z m (or_intror (or_introl eq_refl))). split; [lia|]. split; [lia|]. reflexivity.
  - destruct (String.eqb (hw_boundary a) "nonperiodic"); [|discriminate]. destruct (hw_thickness a); [discriminate|].
    destruct (Req_bool _ 0); [discriminate|]. unfold call_free in H. cbn in H. destruct (free_construct _) as [s|e] eqn:C; [|discriminate]. injection H as <- _.
    destruct (free_inv _ _ C) as (_ & _ & _ & Ck). unfold free_construct in C.
    destruct (new_on _ _) as [h|e] eqn:N; [|discriminate]. cbn [bind] in C.
    destruct (Nat.eqb (dim h) 1); [discriminate|]. injection C as <-.
    destruct (new_on_inv _ _ _ N) as (_ & _ & _ & _ & _ & _ & h' & N' & <-).
    pose proof (new_inv _ _ N') as (D & _ & Z & _ & _ & _ & E). cbn [a_grid a_sizes base_args fa_grid fa_sizes] in *.
    pose proof (Z n (or_introl eq_refl)). pose proof (Z m (or_intror (or_introl eq_refl))).
    unfold free. cbn [sb_grid sb_topo sb_area sb_check f_hs]. rewrite E. cbn [h_grid]. split; [reflexivity|].
    split; [unfold topo_shape; cbn [f_hs f_dom h_grid map combine fst snd]; rewrite !Nat.min_l by lia; reflexivity|].
    split; [lia|]. split; [lia|]. reflexivity.
Qed.

Definition plain_periodic (grid : list nat) (sizes : list R) (e : R) : res substrate :=
  call_periodic grid sizes (mkKw (Some e) None None None None None false).
Definition plain_free (grid : list nat) (sizes : list R) (e : R) : res substrate :=
  call_free grid sizes (mkKw (Some e) None None None None None false).

Lemma periodic_modulus : forall grid sizes e nu, 1 - nu ^ 2 <> 0 ->
  call_periodic grid sizes (mkKw (Some e) None (Some None) (Some nu) None None false)
  = plain_periodic grid sizes (e / (1 - nu ^ 2)).
Proof.
  intros grid sizes e nu NZ. unfold plain_periodic, call_periodic.
  cbn [kw_unknown kw_check given orb kw_young default kw_q0 kw_thick kw_poisson kw_engine].
  unfold construct, construct_on, new, new_on. cbn [a_grid a_sizes a_q0 a_thick a_poisson a_engine a_young].
  destruct (negb _); [reflexivity|]. destruct (extend_sizes _ _) as [sz|]; [|reflexivity]. cbn [bind].
  destruct (compute_steps _ _) as [st|]; [|reflexivity]. cbn [bind].
  destruct (Req_bool_spec (1 - nu ^ 2) 0) as [Z|Z]; [congruence|]. destruct (Req_bool_spec (1 - 0 ^ 2) 0) as [Z'|Z']; [lra|]. cbn [bind].
  replace (e / (1 - nu ^ 2) / (1 - 0 ^ 2)) with (e / (1 - nu ^ 2)) by (field; lra).
  set (h1 := {| h_grid := grid; h_sizes := sz; h_steps := st; h_young := e; h_poisson := nu; h_Estar := e / (1 - nu ^ 2); h_q0 := None; h_thick := None |}).
  set (h2 := {| h_grid := grid; h_sizes := sz; h_steps := st; h_young := e / (1 - nu ^ 2); h_poisson := 0; h_Estar := e / (1 - nu ^ 2); h_q0 := None; h_thick := None |}).
  assert (GF : compute_greens_function h1 (0%nat, 0%nat) (fourier_pts grid) = compute_greens_function h2 (0%nat, 0%nat) (fourier_pts grid)) by reflexivity.
  rewrite GF. destruct (compute_greens_function h2 (0%nat, 0%nat) (fourier_pts grid)) as [gf|]; [|reflexivity]. cbn [bind].
  f_equal.
Qed.

Lemma hw_substrate_plain : forall a t sb young, hw_substrate a t = Ret (sb, young) -> hw_thickness a = None ->
  1 - hw_poisson a ^ 2 <> 0
  /\ ((hw_boundary a = "periodic"%string /\ young = hw_modulus a
       /\ plain_periodic (sf_grid (sc_surface t)) (sc_sizes t) (hw_modulus a / (1 - hw_poisson a ^ 2)) = Ret sb)
      \/ (hw_boundary a = "nonperiodic"%string /\ young = hw_modulus a / (1 - hw_poisson a ^ 2)
          /\ plain_free (sf_grid (sc_surface t)) (sc_sizes t) (hw_modulus a / (1 - hw_poisson a ^ 2)) = Ret sb)).
Proof.
  intros a t sb young H TH. unfold hw_substrate in H. rewrite TH in H.
  destruct (String.eqb_spec (hw_boundary a) "periodic") as [B|B].
  - assert (NZ : 1 - hw_poisson a ^ 2 <> 0).
    { intro Z. unfold call_periodic in H. cbn [kw_unknown kw_check given orb kw_young default kw_q0 kw_thick kw_poisson kw_engine] in H.
      destruct (construct _) as [s|] eqn:C; [|discriminate]. destruct (construct_inv _ _ C) as [N _].
      unfold new, new_on in N. cbn [a_grid a_sizes a_q0 a_thick a_poisson a_engine a_young] in N.
      destruct (negb _); [discriminate|]. apply bindRet in N. destruct N as (? & _ & N). apply bindRet in N. destruct N as (? & _ & N).
      destruct (Req_bool_spec (1 - hw_poisson a ^ 2) 0); [discriminate|contradiction]. }
    split; [exact NZ|]. left. split; [exact B|]. rewrite (periodic_modulus _ _ _ _ NZ) in H.
    apply bindRet in H. destruct H as (s & S & H). injection H as <- <-. auto.
  - destruct (String.eqb_spec (hw_boundary a) "nonperiodic") as [B'|B']; [|discriminate].
    destruct (Req_bool_spec (1 - hw_poisson a ^ 2) 0) as [Z|NZ]; [discriminate|]. split; [exact NZ|]. right. split; [exact B'|].
    apply bindRet in H. destruct H as (s & S & H). injection H as <- <-. auto.
Qed.

Lemma hw_substrate_half_space : forall a t n m lx ly, sf_grid (sc_surface t) = [n; m] -> sc_sizes t = [lx; ly] -> (2 <= n)%nat -> (2 <= m)%nat ->
  hw_boundary a = "periodic"%string \/ hw_boundary a = "nonperiodic"%string -> hw_thickness a = None -> 1 - hw_poisson a ^ 2 <> 0 ->
  exists sb young, hw_substrate a t = Ret (sb, young).
Proof.
  intros a t n m lx ly G SZ Hn Hm B TH NZ. unfold hw_substrate. rewrite G, SZ, TH. destruct B as [-> | ->]; cbn [String.eqb Ascii.eqb Bool.eqb].
  - unfold call_periodic. cbn [kw_unknown kw_check given orb kw_young default kw_q0 kw_thick kw_poisson kw_engine].
    unfold construct, construct_on, new, new_on. cbn [a_grid a_sizes a_q0 a_thick a_poisson a_engine List.length Nat.eqb orb negb].
    unfold extend_sizes. cbn [bind]. unfold compute_steps. cbn [existsb].
    destruct n as [|[|n]]; [lia|lia|]. destruct m as [|[|m]]; [lia|lia|]. cbn [Nat.eqb orb bind].
    destruct (Req_bool_spec (1 - hw_poisson a ^ 2) 0) as [Z|Z]; [contradiction|]. cbn [bind].
    unfold compute_greens_function, dim. cbn [h_grid List.length Nat.eqb]. unfold greens_2d, fourier_pts. cbn [nth fst snd h_thick h_q0 at_origin].
    assert (Q : (1 <= S (S n) / 2)%nat) by (apply Nat.div_le_lower_bound; lia).
    destruct (Nat.eqb_spec ((S (S n) / 2 + 1) * S (S m)) 0) as [Z'|Z']; [nia|].
    unfold at_origin. cbn [fst snd Nat.eqb andb].
    destruct (Nat.ltb_spec (S (S n) / 2 + 1) 2); [lia|]. destruct (Nat.ltb_spec (S (S m)) 2); [lia|]. cbn [orb bind].
    do 2 eexists. reflexivity.
  - destruct (Req_bool_spec (1 - hw_poisson a ^ 2) 0) as [Z|Z]; [contradiction|].
    unfold call_free. cbn [kw_unknown kw_check given orb kw_young default kw_q0 kw_thick kw_poisson kw_engine].
    unfold free_construct, new_on. cbn [a_grid a_sizes a_q0 a_thick a_poisson a_engine base_args fa_grid fa_sizes fa_engine fa_young List.length Nat.eqb orb negb].
    unfold extend_sizes. cbn [bind]. unfold compute_steps. cbn [existsb].
    destruct n as [|n]; [lia|]. destruct m as [|m]; [lia|]. cbn [Nat.eqb orb bind].
    destruct (Req_bool_spec (1 - 0 ^ 2) 0) as [Z'|Z']; [lra|]. cbn [bind]. unfold dim. cbn [h_grid List.length Nat.eqb bind].
    do 2 eexists. reflexivity.
Qed.
Lemma hw_substrate_ok : forall a t n m lx ly, sf_grid (sc_surface t) = [n; m] -> sc_sizes t = [lx; ly] -> (2 <= n)%nat -> (2 <= m)%nat ->
  hw_boundary a = "periodic"%string \/ hw_boundary a = "nonperiodic"%string -> possible_layer a -> 1 - hw_poisson a ^ 2 <> 0 ->
  exists sb young, hw_substrate a t = Ret (sb, young).
Proof.
  intros a t n m lx ly G SZ Hn Hm B [TH|(P & d & TH & _)] NZ; [exact (hw_substrate_half_space a t n m lx ly G SZ Hn Hm B TH NZ)|].
  unfold hw_substrate. rewrite P, G, SZ, TH. cbn [String.eqb Ascii.eqb Bool.eqb].
  unfold call_periodic. cbn [kw_unknown kw_check given orb kw_young default kw_q0 kw_thick kw_poisson kw_engine].
  destruct (HalfSpace_Witness.construct_2d_ok (mkArgs [n; m] (hw_modulus a) [lx; ly] None (Some d) (hw_poisson a) None) n m) as [s E];
    try reflexivity; try assumption; try discriminate; [left; reflexivity|].
  rewrite E. cbn [bind]. do 2 eexists. reflexivity.
Qed.

(** ** The events one by one *)
Lemma run_events : forall solver active sb young sizes unit a single cs i h w ev r,
  hw_run solver active sb young sizes unit a single cs i h w = (ev, r) -> forall x, In x ev ->
  exists j sf o ev' r', emit young sizes unit a single j sf o = (ev', r') /\ In x ev' /\ (forall y, In y ev' -> In y ev).
Proof.
  intros solver active sb young sizes unit a single. induction cs as [|c cs IH]; intros i h w ev r H x X; cbn [hw_run] in H.
  - injection H as <- <-. destruct X.
  - destruct (hw_step solver active sb sizes a c h w) as [w1 [[o h1]|e]]; [|injection H as <- <-; destruct X].
    destruct (emit young sizes unit a single i (snd w1) o) as [e1 [[]|e]] eqn:E.
    + destruct (hw_run solver active sb young sizes unit a single cs (S i) h1 w1) as [e2 r2] eqn:Rn. injection H as <- <-.
      apply in_app_or in X. destruct X as [X|X].
      * exists i, (snd w1), o, e1, (Ret tt). split; [exact E|]. split; [exact X|]. intros y Y. apply in_or_app. left. exact Y.
      * destruct (IH _ _ _ _ _ Rn x X) as (j & sf & o' & ev' & r' & E' & X' & Y'). exists j, sf, o', ev', r'.
        split; [exact E'|]. split; [exact X'|]. intros y Y. apply in_or_app. right. auto.
    + injection H as <- <-. exists i, (snd w1), o, e1, (Exc e). auto.
Qed.

Lemma emit_saved : forall young sizes unit a single i sf o ev r, emit young sizes unit a single i sf o = (ev, r) ->
  forall n m mc, In (Saved n m mc) ev ->
    (mc = [] \/ exists hd rw, In (Row hd rw) ev /\ mc = combine hd (row_data rw) /\ hd = header (if Req_EM_T young 1 then true else false) unit)
    /\ (forall s z, m = WContact s z -> hw_contact_fn a <> None)
    /\ (forall e p, m = WPressure e p -> e = if Req_EM_T young 1 then None else Some young)
    /\ (forall c, hw_contact_fn a = Some c -> (forall s z, m <> WContact s z) -> mc = [])
    /\ (forall c, hw_pressure_fn a = Some c -> (forall s z, m <> WContact s z) -> (forall e p, m <> WPressure e p) -> mc = [])
    /\ (forall s z, m = WContact s z -> exists hd rw, In (Row hd rw) ev /\ mc = combine hd (row_data rw)).
Proof.
  intros young sizes unit a single i sf o ev r H n m mc X. unfold emit in H.
  destruct (dump young sizes unit sf (so_u o) (so_f o) (so_offset o)) as [hd rw] eqn:D.
  assert (HD : hd = header (if Req_EM_T young 1 then true else false) unit) by (unfold dump in D; injection D as <- _; reflexivity).
  set (nc := if hw_netcdf a then _ else _) in *.
  assert (NC : forall n m mc, ~ In (Saved n m mc) nc).
  { intros n0 m0 mc0 Q. unfold nc in Q. destruct (hw_netcdf a); [|destruct Q]. destruct Q as [Q|[]]. discriminate. }
  clearbody nc. unfold save in H.
  destruct (hw_contact_fn a) as [f1|] eqn:E1; destruct (hw_pressure_fn a) as [f2|] eqn:E2;
    destruct (hw_displ_fn a) as [f3|] eqn:E3; destruct (hw_gap_fn a) as [f4|] eqn:E4; cbn zeta beta iota in H;
    (destruct (binop Rminus (so_u o) (heights sf)) as [d|e] eqn:B; cbn [fst] in H);
    injection H as <- <-;
    repeat (apply in_app_or in X; destruct X as [X|X]); try (exfalso; eapply NC; exact X); cbn [In app] in X;
    repeat match type of X with _ \/ _ => destruct X as [X|X] end; try contradiction; try discriminate X;
    injection X as <- <- <-;
    (split; [first [left; reflexivity | right; exists hd, rw; split; [rewrite ?in_app_iff; cbn [In]; tauto|split; [reflexivity|exact HD]]]|];
     split; [intros s z Q; first [discriminate Q | discriminate]|];
     split; [intros e0 p0 Q; first [discriminate Q | injection Q as <- _; reflexivity]|];
     split; [intros c Q; first [discriminate Q | intros W; first [reflexivity | exfalso; eapply W; reflexivity]]|];
     split; [intros c Q; first [discriminate Q | intros W W'; first [reflexivity | exfalso; eapply W; reflexivity | exfalso; eapply W'; reflexivity]]|];
     intros s z Q; first [discriminate Q | exists hd, rw; split; [rewrite ?in_app_iff; cbn [In]; tauto|reflexivity]]).
Qed.
