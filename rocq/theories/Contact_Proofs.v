(** * Points of the grid and the response of the half-spaces at them *)
From Coq Require Import Reals ZArith Lia Lra List Arith Bool Eqdep_dec FunctionalExtensionality.
From Coquelicot Require Import Complex Coquelicot.
From Verif Require Import Py FFT_Base HalfSpace_Model HalfSpace_Spec HalfSpace_Proofs HalfSpace_Results
  HalfSpace_Results2 HalfSpace_Results3 Free_Model Free_Spec Free_Proofs Systems_Model Pipeline_Model Contact_Model.
From Verif Require CCG_Model CCG_Real CCG_Spec CCG_Results CCG_Results2.
From Coq Require Import List.
Import ListNotations.
Local Open Scope R_scope.

Ltac funext := apply functional_extensionality; intro.

Lemma pt_eq : forall g (p q : pt g), px p = px q -> py p = py q -> p = q.
Proof.
  intros g [[x y] H] [[x' y'] H'] E1 E2. unfold px, py in *. cbn in *. subst.
  f_equal. apply UIP_dec. apply bool_dec.
Qed.
Lemma pt_inside : forall g (p : pt g), (px p < gx g)%nat /\ (py p < gy g)%nat.
Proof.
  intros g [[x y] H]. unfold px, py. cbn. unfold inside in H. apply andb_prop in H. cbn [fst snd] in H.
  destruct H as [H1 H2]. apply Nat.ltb_lt in H1. apply Nat.ltb_lt in H2. auto.
Qed.
Lemma inside_true : forall g x y, inside g (x, y) = true <-> (x < gx g)%nat /\ (y < gy g)%nat.
Proof.
  intros. unfold inside. cbn [fst snd]. rewrite andb_true_iff, !Nat.ltb_lt. reflexivity.
Qed.
Definition at_pt (g : list nat) (x y : nat) (H : (x < gx g)%nat /\ (y < gy g)%nat) : pt g :=
  exist _ (x, y) (proj2 (inside_true g x y) H).

Lemma write_at : forall A g (d : A) v (p : pt g), write g d v (px p) (py p) = v p.
Proof.
  intros A g d v p. unfold write. pose proof (pt_inside g p) as [H1 H2].
  destruct (bool_dec _ _) as [H|H].
  - f_equal. apply pt_eq; reflexivity.
  - exfalso. apply H. apply inside_true. auto.
Qed.
Lemma write_in : forall A g (d : A) v x y (H : (x < gx g)%nat /\ (y < gy g)%nat),
  write g d v x y = v (at_pt g x y H).
Proof. intros. rewrite <- (write_at A g d v (at_pt g x y H)). reflexivity. Qed.
Lemma write_out : forall A g (d : A) v x y, ~ ((x < gx g)%nat /\ (y < gy g)%nat) -> write g d v x y = d.
Proof.
  intros A g d v x y H. unfold write. destruct (bool_dec _ _) as [K|K]; [|reflexivity].
  exfalso. apply H, inside_true, K.
Qed.
Lemma write_read : forall g f x y, on_grid g x y -> write g 0 (read g f) x y = f x y.
Proof. intros g f x y H. rewrite (write_in _ _ _ _ _ _ H). reflexivity. Qed.
Lemma read_write : forall g (v : pt g -> R), read g (write g 0 v) = v.
Proof. intros. funext. unfold read. apply write_at. Qed.

Lemma points_all : forall g (p : pt g), In p (points g).
Proof.
  intros g p. unfold points. apply in_flat_map. exists (px p, py p). pose proof (pt_inside g p) as [H1 H2].
  split.
  - apply in_prod; apply in_seq; lia.
  - unfold here. destruct (bool_dec _ _) as [H|H].
    + left. apply pt_eq; reflexivity.
    + exfalso. apply H. apply inside_true. auto.
Qed.

Lemma fold_sum_app : forall l l', fold_right Rplus 0 (l ++ l') = fold_right Rplus 0 l + fold_right Rplus 0 l'.
Proof. induction l; intros; cbn; [lra|]. rewrite IHl. lra. Qed.
Lemma sum_seq : forall n f, fold_right Rplus 0 (map f (seq 0 n)) = Rsum n f.
Proof.
  induction n; intros f; [reflexivity|]. rewrite seq_S, map_app, fold_sum_app, IHn. cbn. lra.
Qed.
Lemma sum_prod : forall (l l' : list nat) f,
  fold_right Rplus 0 (map f (list_prod l l'))
  = fold_right Rplus 0 (map (fun x => fold_right Rplus 0 (map (fun y => f (x, y)) l')) l).
Proof.
  induction l as [|x l IH]; intros l' f; [reflexivity|]. cbn [list_prod map fold_right].
  rewrite map_app, fold_sum_app, IH, map_map. reflexivity.
Qed.

Lemma sum_points : forall g (v : pt g -> R),
  CCG_Real.lsum (points g) v = Rsum2 (gx g) (gy g) (write g 0 v).
Proof.
  intros g v. unfold CCG_Real.lsum, points.
  assert (A : forall l, fold_right Rplus 0 (map v (flat_map (here g) l))
     = fold_right Rplus 0 (map (fun p => write g 0 v (fst p) (snd p)) l)).
  { induction l as [|p l IH]; [reflexivity|]. cbn [flat_map map fold_right]. rewrite map_app, fold_sum_app, IH. f_equal.
    unfold write, here. destruct p as [x y]. cbn [fst snd]. destruct (bool_dec _ _); cbn; lra. }
  rewrite A, sum_prod. cbn [fst snd]. unfold Rsum2. rewrite <- sum_seq. f_equal. apply map_ext. intros x. apply sum_seq.
Qed.

(** ** A Fourier multiplier at the points *)
Section Multiplier.
  Context (g : list nat) (ev : arr -> res arr) (c : R) (G : spectrum).
  Hypothesis M : multiplier g ev c G.

  Lemma respond_mult : forall f p,
    respond g ev f p = c * mult (gx g) (gy g) G (write g 0 f) (px p) (py p).
  Proof.
    destruct M as (P1 & P2 & HG & _ & E). intros f p. unfold respond.
    destruct (E (mkArr g (write g 0 f)) eq_refl) as (u & E1 & E2 & E3). rewrite E1. unfold read.
    apply E3. exact (pt_inside g p).
  Qed.
  Lemma respond_write : forall f x y, on_grid g x y ->
    write g 0 (respond g ev f) x y = c * mult (gx g) (gy g) G (write g 0 f) x y.
  Proof. intros f x y H. rewrite (write_in _ _ _ _ _ _ H). apply respond_mult. Qed.
  Lemma respond_fft : forall f k l, on_grid g k l ->
    fft2 (gx g) (gy g) (write g 0 (respond g ev f)) k l
    = (RtoC c * (G k l * fft2 (gx g) (gy g) (write g 0 f) k l))%C.
  Proof.
    destruct M as (P1 & P2 & HG & _ & E). intros f k l [Hk Hl].
    rewrite <- (fft2_mult (gx g) (gy g) P1 P2 G) by assumption.
    rewrite <- fft2_scal. apply fft2_ext. intros x y Hx Hy. apply respond_write. split; assumption.
  Qed.
  Lemma respond_linear : CCG_Spec.linear (respond g ev).
  Proof.
    destruct M as (P1 & P2 & HG & _ & E). split.
    - intros f f' p. rewrite !respond_mult. pose proof (pt_inside g p) as [H1 H2].
      rewrite <- Rmult_plus_distr_l. f_equal.
      transitivity (mult (gx g) (gy g) G (fun x y => 1 * write g 0 f x y + 1 * write g 0 f' x y) (px p) (py p)).
      + apply mult_ext. intros x y Hx Hy. rewrite !(write_in _ _ _ _ _ _ (conj Hx Hy)). ring.
      + rewrite mult_lin by assumption. ring.
    - intros k f p. rewrite !respond_mult. pose proof (pt_inside g p) as [H1 H2].
      transitivity (c * mult (gx g) (gy g) G (fun x y => k * write g 0 f x y + 0 * write g 0 f x y) (px p) (py p)).
      + f_equal. apply mult_ext. intros x y Hx Hy. rewrite !(write_in _ _ _ _ _ _ (conj Hx Hy)). ring.
      + rewrite mult_lin by assumption. ring.
  Qed.
  Lemma respond_zero : forall p, respond g ev (fun _ => 0) p = 0.
  Proof.
    intros p. destruct respond_linear as [_ L].
    transitivity (0 * respond g ev (fun _ => 0) p); [|ring]. rewrite <- L. f_equal. funext. ring.
  Qed.
End Multiplier.
