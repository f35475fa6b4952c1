(** * Vocabulary for symmetries of the whole calculation *)
From Coq Require Import Reals List Arith String.
From Verif Require Import Py FFT_Base HalfSpace_Spec HalfSpace_Model Systems_Model Pipeline_Model Contact_Model.
From Verif Require Pipeline_Spec.
Import ListNotations.
Local Open Scope R_scope.

(** What is done to the surface. *)
Inductive motion :=
| Still
| Shift (i j : nat)     (* translation by whole pixels, periodic continuation *)
| Mirror                (* first axis reversed *)
| Exchange.             (* axes exchanged *)

Definition moved_grid (v : motion) (g : list nat) : list nat :=
  match v, g with
  | Exchange, [n; m] => [m; n]
  | _, _ => g
  end.
Definition moved_sizes (v : motion) (sizes : list R) : list R :=
  match v, sizes with
  | Exchange, [lx; ly] => [ly; lx]
  | _, _ => sizes
  end.
(** The point of grid [g] that point ([x],[y]) of the moved grid shows. *)
Definition source (v : motion) (g : list nat) (x y : nat) : nat * nat :=
  match v with
  | Still => (x, y)
  | Shift i j => (((x + i) mod gx g)%nat, ((y + j) mod gy g)%nat)
  | Mirror => ((gx g - 1 - x)%nat, y)
  | Exchange => (y, x)
  end.

(** Field [f] seen through the map [s] of points. *)
Definition through {A} (s : nat -> nat -> nat * nat) (f : nat -> nat -> A) : nat -> nat -> A :=
  fun x y => f (fst (s x y)) (snd (s x y)).

(** ** The calculation on the moved surface

    All lengths in a unit [k] times smaller, heights measured from a reference
    [sh] lower. *)

(** Surface [sf'] is surface [sf] on an [n] x [m] grid, moved. *)
Record same_surface (k sh : R) (v : motion) (n m : nat) (sf sf' : surface) : Prop := mkSameSurf {
  ss_grid : sf_grid sf = [n; m] /\ sf_grid sf' = moved_grid v [n; m];
  ss_base : forall x y, on_grid (moved_grid v [n; m]) x y ->
    sf_base sf' x y = k * through (source v [n; m]) (sf_base sf) x y + sh;
  ss_plastic : forall x y, on_grid (moved_grid v [n; m]) x y ->
    sf_plastic sf' x y = k * through (source v [n; m]) (sf_plastic sf) x y;
  ss_hardness : sf_hardness sf' = sf_hardness sf;
  ss_area : sf_area sf' = k * k * sf_area sf }.
(** Arguments of [contact_mechanics]: the moved surface, the same pressures,
    hardness and number of steps, the offsets to the new reference. *)
Record same_args (k sh : R) (v : motion) (n m : nat) (lx ly : R) (a a' : cm_args) : Prop := mkSameArgs {
  ga_surface : same_surface k sh v n m (cm_topography a) (cm_topography a');
  ga_sizes : cm_sizes a = [lx; ly] /\ cm_sizes a' = map (Rmult k) (moved_sizes v [lx; ly]);
  ga_periodic : cm_periodic a' = cm_periodic a;
  ga_is_plastic : cm_is_plastic a' = cm_is_plastic a;
  ga_substrate : cm_substrate a' = cm_substrate a;
  ga_nsteps : cm_nsteps a' = cm_nsteps a;
  ga_offsets : cm_offsets a' = option_map (map (fun x => k * x - sh)) (cm_offsets a);
  ga_pressures : cm_pressures a' = cm_pressures a;
  ga_hardness : cm_hardness a' = cm_hardness a;
  ga_maxiter : cm_maxiter a' = cm_maxiter a }.

(** Array [u'] shows [k] times the values of [u], plus [c], at the places the
    points come from. *)
Definition shows (k c : R) (v : motion) (n m : nat) (u u' : arr) : Prop :=
  a_shape u = [n; m] /\ a_shape u' = moved_grid v [n; m]
  /\ forall x y, on_grid (moved_grid v [n; m]) x y -> a_val u' x y = k * through (source v [n; m]) (a_val u) x y + c.
(** What the callback receives in the two calculations. *)
Record shows_output (k sh : R) (v : motion) (n m : nat) (o o' : output) : Prop := mkShows {
  so_disp : shows k 0 v n m (out_disp o) (out_disp o');
  so_gap : shows k 0 v n m (out_gap o) (out_gap o');
  so_pressure : shows 1 0 v n m (out_pressure o) (out_pressure o');
  so_contact : fst (out_contact o) = [n; m] /\ fst (out_contact o') = moved_grid v [n; m]
    /\ forall x y, on_grid (moved_grid v [n; m]) x y ->
       snd (out_contact o') x y = through (source v [n; m]) (snd (out_contact o)) x y;
  so_offset : out_offset o' = k * out_offset o - sh;
  so_load : out_load o' = out_load o;
  so_area : out_area o' = out_area o }.
(** The returned arrays. *)
Definition shows_arrays (k sh : R) (r : res arrays) : res arrays :=
  match r with
  | Ret (press, areas, disps, gaps, conv) =>
      Ret (press, areas, map (fun x => k * x - sh) disps, map (Rmult k) gaps, conv)
  | Exc e => Exc e
  end.

(** Options of the solver in the new unit. *)
Record same_options (k : R) (o o' : options) : Prop := mkSameOpt {
  so_forcetol : op_forcetol o' = k * k * op_forcetol o;
  so_thermotol : op_thermotol o' = op_thermotol o;
  so_mixfac : op_mixfac o' = op_mixfac o;
  so_mixdec : op_mixdec o' = op_mixdec o;
  so_minmix : op_minmix o' = op_minmix o;
  so_bisect : forall g g' x y, (forall z, g' (k * z) = k * k * g z) ->
    op_bisect o' g' (k * x) (k * y) = option_map (Rmult k) (op_bisect o g x y) }.

(** Only a periodic surface may be translated. *)
Definition may_shift (name : string) (v : motion) : Prop :=
  match v with Shift _ _ => name = "periodic"%string | _ => True end.

(** [rms] measures the spread of the heights: not their order, not their mean
    value. *)
Definition measures_spread (rms : arr -> R) : Prop :=
  forall k c v n m u u', 0 < k -> (0 < n)%nat -> (0 < m)%nat -> shows k c v n m u u' ->
  rms u' = k * rms u.
(** In another unit of length the lower bound 1e-12 of the penetration tolerance
    must not matter. *)
Definition resolved (k : R) (rms : arr -> R) (a : cm_args) : Prop :=
  k = 1 \/ (/ 10 ^ 12 < Pipeline_Spec.tolerance rms a /\ / 10 ^ 12 < k * Pipeline_Spec.tolerance rms a).
