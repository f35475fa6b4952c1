(** * The contact calculation does not depend on where, how oriented, in which
    unit and from which reference the surface is described (C77)

    [contact_mechanics (ccg_solver o)] is the pipeline function with the real
    solver on the real half-spaces.  [shows_output] and [same_args] are defined
    in Motion_Spec.v. *)
From Coq Require Import Reals ZArith Lia Lra List Arith Bool String.
From Verif Require Import Py FFT_Base HalfSpace_Model HalfSpace_Spec Systems_Model Systems_Spec Systems_Proofs
  Pipeline_Model Pipeline_Spec Pipeline_Results Prop_Pipeline Contact_Model Prop_Contact
  Motion_Spec Motion_Base Motion_Solver Motion_Pipeline.
From Coq Require Import List.
Import ListNotations.
Local Open Scope R_scope.

Lemma tolerance_moved : forall k sh v rms a a' n m lx ly, 0 < k -> (0 < n)%nat -> (0 < m)%nat ->
  same_args k sh v n m lx ly a a' -> measures_spread rms -> resolved k rms a ->
  tolerance rms a' = k * tolerance rms a.
Proof.
  intros k sh v rms a a' n m lx ly K P1 P2 GA MS RS. pose proof (ga_surface _ _ _ _ _ _ _ _ _ GA) as S.
  destruct (ss_grid _ _ _ _ _ _ _ S) as [G G'].
  assert (E : rms (heights (cm_topography a')) = k * rms (heights (cm_topography a))).
  { apply (MS k sh v n m); try assumption. split; [exact G|]. split; [exact G'|]. cbn [heights a_val]. intros x y H.
    rewrite (ss_base _ _ _ _ _ _ _ S x y H), (ss_plastic _ _ _ _ _ _ _ S x y H). unfold through. ring. }
  unfold resolved in RS. unfold tolerance in *. rewrite E, G, G' in *.
  assert (E2 : INR (fold_right Nat.add 0%nat (moved_grid v [n; m])) / INR (List.length (moved_grid v [n; m]))
             = INR (fold_right Nat.add 0%nat [n; m]) / INR (List.length [n; m])).
  { destruct v; cbn [moved_grid fold_right List.length]; try reflexivity. do 2 f_equal. lia. }
  rewrite E2. cbn zeta in *.
  set (d := 10 * (INR (fold_right Nat.add 0%nat [n; m]) / INR (List.length [n; m]))) in *.
  set (z := rms (heights (cm_topography a))) in *.
  replace (k * z / d) with (k * (z / d)) by (unfold Rdiv; ring). set (q := z / d) in *.
  destruct RS as [->|[R1 R2]]; [rewrite !Rmult_1_l; reflexivity|].
  destruct (Rle_dec q (/ 10 ^ 12)) as [L|L]; [lra|]. destruct (Rle_dec (k * q) (/ 10 ^ 12)) as [L'|L']; [lra|reflexivity].
Qed.

Theorem C77_moved : forall k sh v o o' rms callback callback' a a' n m lx ly, 0 < k -> 0 < lx -> 0 < ly ->
  (0 < n)%nat -> (0 < m)%nat ->
  same_args k sh v n m lx ly a a' -> may_shift (substrate_name a) v -> (sh = 0 \/ cm_offsets a <> None) ->
  same_options k o o' -> measures_spread rms -> resolved k rms a -> quiet callback -> quiet callback' ->
  exists calls calls' r, contact_mechanics (ccg_solver o) rms callback a = (calls, r)
    /\ contact_mechanics (ccg_solver o') rms callback' a' = (calls', shows_arrays k sh r)
    /\ Forall2 (shows_output k sh v n m) calls calls'.
Proof.
  intros k sh v o o' rms cb cb' a a' n m lx ly K X Y P1 P2 GA V M O MS RS Q Q'.
  pose proof (pipeline_same k sh v o o' rms rms cb cb' a a' n m lx ly K X Y GA V M O Q Q'
    (tolerance_moved k sh v rms a a' n m lx ly K P1 P2 GA MS RS)) as H.
  destruct (contact_mechanics (ccg_solver o) rms cb a) as [l r]. destruct (contact_mechanics (ccg_solver o') rms cb' a') as [l' r'].
  destruct H as [F ->]. exists l, l', r. auto.
Qed.
Print Assumptions C77_moved.

Lemma same_options_refl : forall o, same_options 1 o o.
Proof.
  intros o. constructor; try reflexivity; try ring. intros g g' x y H. rewrite !Rmult_1_l.
  replace g' with g.
  - destruct (op_bisect o g x y); cbn; [rewrite Rmult_1_l|]; reflexivity.
  - apply FunctionalExtensionality.functional_extensionality. intros z. specialize (H z). rewrite !Rmult_1_l in H. congruence.
Qed.
Lemma shows_arrays_1 : forall r, shows_arrays 1 0 r = r.
Proof.
  intros [[[[[p ar] d] g] c]|e]; [|reflexivity]. cbn [shows_arrays].
  assert (D : forall f, (forall x, f x = x) -> forall l : list R, map f l = l).
  { intros f F l. induction l as [|x l IH]; [reflexivity|]. cbn. rewrite F, IH. reflexivity. }
  rewrite !D by (intros; ring). reflexivity.
Qed.
Lemma Forall2_nth : forall A B (Q : A -> B -> Prop) l l' i x, Forall2 Q l l' -> nth_error l i = Some x ->
  exists y, nth_error l' i = Some y /\ Q x y.
Proof.
  intros A B Q l l' i x F. revert i. induction F as [|p q l l' S F IH]; intros i NI; destruct i; try discriminate; cbn in *.
  - injection NI as <-. eauto.
  - apply IH. exact NI.
Qed.

(** Translation of a periodic surface by whole pixels, reversal of an axis,
    exchange of the axes: the same numbers, the maps moved alike. *)
Theorem C77_symmetry : forall v o rms callback callback' a a' n m lx ly, 0 < lx -> 0 < ly -> (0 < n)%nat -> (0 < m)%nat ->
  same_args 1 0 v n m lx ly a a' -> may_shift (substrate_name a) v -> measures_spread rms -> quiet callback -> quiet callback' ->
  exists calls calls' r, contact_mechanics (ccg_solver o) rms callback a = (calls, r)
    /\ contact_mechanics (ccg_solver o) rms callback' a' = (calls', r)
    /\ Forall2 (shows_output 1 0 v n m) calls calls'.
Proof.
  intros v o rms cb cb' a a' n m lx ly X Y P1 P2 GA V MS Q Q'.
  destruct (C77_moved 1 0 v o o rms cb cb' a a' n m lx ly Rlt_0_1 X Y P1 P2 GA V (or_introl eq_refl) (same_options_refl o) MS
    (or_introl eq_refl) Q Q') as (l & l' & r & H & H' & F).
  rewrite shows_arrays_1 in H'. eauto 8.
Qed.
Print Assumptions C77_symmetry.

(** A symmetric surface carries symmetric pressures. *)
Theorem C77_symmetric_surface : forall v o rms callback a calls r n m lx ly, 0 < lx -> 0 < ly -> (0 < n)%nat -> (0 < m)%nat ->
  same_args 1 0 v n m lx ly a a -> may_shift (substrate_name a) v -> measures_spread rms -> quiet callback ->
  contact_mechanics (ccg_solver o) rms callback a = (calls, r) ->
  forall out, In out calls -> shows 1 0 v n m (out_pressure out) (out_pressure out) /\ shows 1 0 v n m (out_disp out) (out_disp out).
Proof.
  intros v o rms cb a calls r n m lx ly X Y P1 P2 GA V MS Q H out IN.
  destruct (C77_symmetry v o rms cb cb a a n m lx ly X Y P1 P2 GA V MS Q Q) as (l & l' & r' & H1 & H2 & F).
  rewrite H in H1, H2. injection H1 as <- <-. injection H2 as <-.
  apply In_nth_error in IN. destruct IN as [i NI].
  destruct (Forall2_nth _ _ _ _ _ _ _ F NI) as (q & NQ & S). rewrite NI in NQ. injection NQ as <-.
  split; [exact (so_pressure _ _ _ _ _ _ _ S)|exact (so_disp _ _ _ _ _ _ _ S)].
Qed.
Print Assumptions C77_symmetric_surface.

(** Heights from another reference: the displacements are measured from it as
    well, everything else stays. *)
Theorem C77_reference : forall sh o rms callback callback' a a' n m lx ly, 0 < lx -> 0 < ly -> (0 < n)%nat -> (0 < m)%nat ->
  same_args 1 sh Still n m lx ly a a' -> cm_offsets a <> None -> measures_spread rms -> quiet callback -> quiet callback' ->
  exists calls calls' r, contact_mechanics (ccg_solver o) rms callback a = (calls, r)
    /\ contact_mechanics (ccg_solver o) rms callback' a' = (calls', shows_arrays 1 sh r)
    /\ Forall2 (shows_output 1 sh Still n m) calls calls'.
Proof.
  intros sh o rms cb cb' a a' n m lx ly X Y P1 P2 GA OF MS Q Q'.
  exact (C77_moved 1 sh Still o o rms cb cb' a a' n m lx ly Rlt_0_1 X Y P1 P2 GA Logic.I (or_intror OF) (same_options_refl o) MS
    (or_introl eq_refl) Q Q').
Qed.
Print Assumptions C77_reference.

(** Another unit of length: lengths are multiplied by [k], pressures and
    areas stay (Young's modulus is 1 in both). *)
Theorem C77_units : forall k o o' rms callback callback' a a' n m lx ly, 0 < k -> 0 < lx -> 0 < ly -> (0 < n)%nat -> (0 < m)%nat ->
  same_args k 0 Still n m lx ly a a' -> same_options k o o' -> measures_spread rms -> resolved k rms a ->
  quiet callback -> quiet callback' ->
  exists calls calls' r, contact_mechanics (ccg_solver o) rms callback a = (calls, r)
    /\ contact_mechanics (ccg_solver o') rms callback' a' = (calls', shows_arrays k 0 r)
    /\ Forall2 (shows_output k 0 Still n m) calls calls'.
Proof.
  intros k o o' rms cb cb' a a' n m lx ly K X Y P1 P2 GA O MS RS Q Q'.
  exact (C77_moved k 0 Still o o' rms cb cb' a a' n m lx ly K X Y P1 P2 GA Logic.I (or_introl eq_refl) O MS RS Q Q').
Qed.
Print Assumptions C77_units.

(** ** Examples *)

(** The standard deviation measures the spread. *)
Lemma deviation_spread : measures_spread deviation.
Proof.
  intros k c v n m u u' K P1 P2 (S & S' & V).
  assert (U : u = mkArr [n; m] (a_val u)) by (destruct u; cbn in *; congruence).
  assert (U' : u' = mkArr (moved_grid v [n; m]) (a_val u')) by (destruct u'; cbn in *; congruence).
  rewrite U, U'. unfold deviation. cbn [a_shape].
  rewrite (mean_moved v n m P1 P2 (a_val u) (a_val u') k c V). unfold amap. cbn [a_shape a_val].
  set (mu := amean _).
  rewrite (sum_moved v n m P1 P2 (fun x y => (a_val u x y - mu) ^ 2) _ (k ^ 2) 0).
  2:{ intros x y G. rewrite (V x y G). unfold through. ring. }
  rewrite (size_new v n m P1 P2).
  set (s := asum _). set (z := INR _).
  replace ((k ^ 2 * s + z * 0) / z) with (k ^ 2 * (s / z)) by (unfold Rdiv; ring).
  rewrite sqrt_mult_alt by apply pow2_ge_0. rewrite sqrt_pow2 by lra. reflexivity.
Qed.

(** Heights [v] in the first column and [w] in the second. *)
Definition columns (v w : R) : surface :=
  mkSurface [2; 2]%nat (fun _ j => if Nat.eqb j 0 then v else w) (fun _ _ => 0) 0 (1 / 4).
Definition columns_at (v w : R) (off : option (list R)) : cm_args :=
  mkCm (columns v w) [1; 1] true false None None off None None 100.
Lemma small_grid : forall x y, on_grid [2; 2]%nat x y -> (x = 0 \/ x = 1)%nat /\ (y = 0 \/ y = 1)%nat.
Proof. intros x y [X Y]. unfold gx in X. unfold gy in Y. cbn in X, Y. lia. Qed.

Lemma rows_moved : forall v off, v = Mirror \/ v = Shift 1 0 \/ v = Shift 3 1 ->
  same_args 1 0 v 2 2 1 1 (rows_at (1 / 2) (- 1 / 2) off None) (rows_at (- 1 / 2) (1 / 2) off None).
Proof.
  intros v off D.
  assert (MG : moved_grid v [2; 2]%nat = [2; 2]%nat) by (destruct D as [-> | [-> | ->]]; reflexivity).
  constructor; try reflexivity.
  - constructor; cbn [rows_at cm_topography rows sf_grid sf_base sf_plastic sf_hardness sf_area]; rewrite ?MG; auto; try lra.
    + intros x y G. destruct (small_grid x y G) as [Hx Hy].
      destruct D as [-> | [-> | ->]]; destruct Hx as [-> | ->], Hy as [-> | ->]; unfold through; cbn; lra.
    + intros x y _. unfold through. lra.
  - split; [reflexivity|]. destruct D as [-> | [-> | ->]]; cbn; repeat f_equal; ring.
  - cbn [rows_at cm_offsets]. destruct off as [l|]; [|reflexivity]. cbn [option_map]. f_equal.
    rewrite <- (map_id l) at 1. apply map_ext. intros; ring.
Qed.
Lemma rows_exchanged : forall off,
  same_args 1 0 Exchange 2 2 1 1 (rows_at (1 / 2) (- 1 / 2) off None) (columns_at (1 / 2) (- 1 / 2) off).
Proof.
  intros off. constructor; try reflexivity.
  - constructor; cbn; auto; try lra; intros x y G; [|unfold through; ring]. destruct (small_grid x y G) as [Hx Hy].
    destruct Hx as [-> | ->], Hy as [-> | ->]; unfold through; cbn; lra.
  - split; [reflexivity|]. cbn. repeat f_equal; ring.
  - cbn [rows_at columns_at cm_offsets]. destruct off as [l|]; [|reflexivity]. cbn [option_map]. f_equal.
    rewrite <- (map_id l) at 1. apply map_ext. intros; ring.
Qed.

(** The wave of C75, mirrored, translated and with exchanged axes. *)
Example C77_nonvacuous :
  (exists calls p ar g c out, contact_mechanics (ccg_solver usual) deviation silent (rows_at (- 1 / 2) (1 / 2) (Some [1; 2]) None)
     = (calls, Ret (p, ar, [1; 2], g, c)) /\ p = [PI; 2 * PI] /\ c = [true; true] /\ nth_error calls 0%nat = Some out
     /\ a_val (out_pressure out) 0%nat 0%nat = PI / 2 /\ a_val (out_pressure out) 1%nat 0%nat = 3 / 2 * PI)
  /\ (exists calls p ar g c out, contact_mechanics (ccg_solver usual) deviation silent (columns_at (1 / 2) (- 1 / 2) (Some [1; 2]))
     = (calls, Ret (p, ar, [1; 2], g, c)) /\ p = [PI; 2 * PI] /\ c = [true; true] /\ nth_error calls 0%nat = Some out
     /\ a_val (out_pressure out) 0%nat 0%nat = 3 / 2 * PI /\ a_val (out_pressure out) 0%nat 1%nat = PI / 2).
Proof.
  destruct C75_nonvacuous as [(calls & p & ar & g & c & H & -> & -> & -> & out & NO & V1 & V2) _].
  assert (QS : quiet silent) by (intros ? ?; reflexivity). split.
  - destruct (C77_symmetry Mirror usual deviation silent silent _ _ 2 2 1 1 Rlt_0_1 Rlt_0_1 ltac:(lia) ltac:(lia)
      (rows_moved Mirror (Some [1; 2]) (or_introl eq_refl)) Logic.I deviation_spread QS QS) as (l & l' & r & H1 & H2 & F).
    rewrite H in H1. injection H1 as <- <-.
    destruct (Forall2_nth _ _ _ _ _ _ _ F NO) as (q & NQ & S). destruct (so_pressure _ _ _ _ _ _ _ S) as (_ & _ & SV).
    exists l', [PI; 2 * PI], [1; 1], g, [true; true], q. split; [exact H2|]. repeat split; try assumption.
    + rewrite (SV 0%nat 0%nat) by (split; cbn; lia). unfold through. cbn. rewrite V2. ring.
    + rewrite (SV 1%nat 0%nat) by (split; cbn; lia). unfold through. cbn. rewrite V1. ring.
  - destruct (C77_symmetry Exchange usual deviation silent silent _ _ 2 2 1 1 Rlt_0_1 Rlt_0_1 ltac:(lia) ltac:(lia)
      (rows_exchanged (Some [1; 2])) Logic.I deviation_spread QS QS) as (l & l' & r & H1 & H2 & F).
    rewrite H in H1. injection H1 as <- <-.
    destruct (Forall2_nth _ _ _ _ _ _ _ F NO) as (q & NQ & S). destruct (so_pressure _ _ _ _ _ _ _ S) as (_ & _ & SV).
    exists l', [PI; 2 * PI], [1; 1], g, [true; true], q. split; [exact H2|]. repeat split; try assumption.
    + rewrite (SV 0%nat 0%nat) by (split; cbn; lia). unfold through. cbn. rewrite V1. ring.
    + rewrite (SV 0%nat 1%nat) by (split; cbn; lia). unfold through. cbn. rewrite V2. ring.
Qed.

(** The same surface in a unit half as long, heights from a reference 3
    lower; the hypotheses of the other theorems. *)
Example C77_units_nonvacuous :
  let a := rows_at (1 / 2) (- 1 / 2) (Some [1; 2]) None in
  let b := mkCm (mkSurface [2; 2]%nat (fun i _ => if Nat.eqb i 0 then 1 else -1) (fun _ _ => 0) 0 1) [2; 2] true false None None
             (Some [2; 4]) None None 100 in
  let d := rows_at (7 / 2) (5 / 2) (Some [-2; -1]) None in
  let usual' := mkOpt (4 / 100000) (1 / 100) (1 / 10) 1 10 (fun _ _ _ => None) in
  same_args 2 0 Still 2 2 1 1 a b /\ same_options 2 usual usual' /\ resolved 2 deviation a /\ measures_spread deviation
  /\ same_args 1 3 Still 2 2 1 1 a d /\ cm_offsets a <> None
  /\ same_args 1 0 (Shift 0 1) 2 2 1 1 a a /\ may_shift (substrate_name a) (Shift 0 1)
  /\ exists calls p ar g c, contact_mechanics (ccg_solver usual') deviation silent b = (calls, Ret (p, ar, [2; 4], g, c))
       /\ p = [PI; 2 * PI] /\ c = [true; true].
Proof.
  intros a b d usual'.
  assert (AB : same_args 2 0 Still 2 2 1 1 a b).
  { constructor; try reflexivity.
    - constructor; cbn; auto; try lra; intros x y G; [|unfold through; ring]. destruct (small_grid x y G) as [Hx Hy].
      destruct Hx as [-> | ->], Hy as [-> | ->]; unfold through; cbn; lra.
    - split; [reflexivity|]. cbn. repeat f_equal; ring.
    - cbn. repeat f_equal; ring. }
  assert (O : same_options 2 usual usual').
  { constructor; cbn; try reflexivity; lra. }
  assert (RS : resolved 2 deviation a).
  { right. unfold a. rewrite rows_tolerance; replace (1 / 2 - - 1 / 2) with 1 by field; rewrite Rabs_R1; lra. }
  split; [exact AB|]. split; [exact O|]. split; [exact RS|]. split; [exact deviation_spread|].
  split.
  { constructor; try reflexivity.
    - constructor; cbn; auto; try lra; intros x y G; [|unfold through; ring]. destruct (small_grid x y G) as [Hx Hy].
      destruct Hx as [-> | ->], Hy as [-> | ->]; unfold through; cbn; lra.
    - split; [reflexivity|]. cbn. repeat f_equal; ring.
    - cbn. repeat f_equal; ring. }
  split; [discriminate|]. split.
  { constructor; try reflexivity.
    - constructor; cbn; auto; try lra; intros x y G; [|unfold through; ring]. destruct (small_grid x y G) as [Hx Hy].
      destruct Hx as [-> | ->], Hy as [-> | ->]; unfold through; cbn; lra.
    - split; [reflexivity|]. cbn. repeat f_equal; ring.
    - cbn. repeat f_equal; ring. }
  split; [reflexivity|].
  destruct C75_nonvacuous as [(calls & p & ar & g & c & H & -> & -> & -> & _) _].
  assert (QS : quiet silent) by (intros ? ?; reflexivity).
  destruct (C77_units 2 usual usual' deviation silent silent a b 2 2 1 1 ltac:(lra) Rlt_0_1 Rlt_0_1 ltac:(lia) ltac:(lia)
    AB O deviation_spread RS QS QS) as (l & l' & r & H1 & H2 & _).
  fold a in H. rewrite H in H1. injection H1 as <- <-. cbn [shows_arrays map] in H2.
  exists l', [PI; 2 * PI], [1; 1], (map (Rmult 2) g), [true; true]. split; [|auto]. rewrite H2. repeat f_equal; ring.
Qed.
