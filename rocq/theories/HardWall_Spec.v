(** * Vocabulary of the theorems about the command line *)
From Coq Require Import Reals ZArith List Arith Bool String Ascii.
From Verif Require Import Py FFT_Base HalfSpace_Model Systems_Model Factory_Model Pipeline_Model Pipeline_Spec HardWall_Model.
From Coq Require Import List.
Import ListNotations.
Local Open Scope R_scope.

(** A finished calculation: the surface before and after it, the offset and
    the force the solver was called with, its result, the displacements of the
    topography's points, and the position and the load that are reported. *)
Record hdone := mkHd {
  hd_before : surface; hd_after : surface; hd_off : option R; hd_force : option R;
  hd_opt : oresult; hd_u : arr; hd_position : R; hd_load : R }.

Definition forces (s : hdone) : arr := o_jac (hd_opt s).
(** Number of points under pressure. *)
Definition contact_points (f : arr) : R := count_positive f.

(** What the text files, the log and the NetCDF file contain. *)
Definition rows (ev : list event) : list row :=
  flat_map (fun e => match e with Row _ r => [r] | _ => [] end) ev.
Definition frames (ev : list event) : list (arr * arr * R * R * R) :=
  flat_map (fun e => match e with Frame u f d l a => [(u, f, d, l, a)] | _ => [] end) ev.
Definition files (ev : list event) : list (string * written) :=
  flat_map (fun e => match e with Saved n m _ => [(n, m)] | _ => [] end) ev.

(** The frame and the line of a calculation, for a surface of size [total]. *)
Definition frame_of (s : hdone) : arr * arr * R * R * R :=
  (hd_u s, forces s, hd_position s, hd_load s,
   contact_points (forces s) / INR (size (sf_grid (hd_before s)))).
Definition row_of (total : R) (s : hdone) : row :=
  let rigid := amean (heights (hd_after s)) + hd_position s in
  mkRow (amean (hd_u s)) rigid (amean (hd_u s) - rigid) (asum (forces s)) (asum (forces s) / total)
    (contact_points (forces s) * sf_area (hd_before s))
    (contact_points (forces s) / INR (size (sf_grid (hd_before s)))).

(** The four kinds of maps and what they must contain. *)
Inductive kind := KContact | KPressure | KDispl | KGap.
Definition option_of (k : kind) (a : hw_args) : option string :=
  match k with
  | KContact => hw_contact_fn a | KPressure => hw_pressure_fn a
  | KDispl => hw_displ_fn a | KGap => hw_gap_fn a
  end.
Definition map_of (active : surface -> option R -> option R -> zone) (unit : string) (k : kind) (s : hdone)
    (m : written) : Prop :=
  match k with
  | KContact => m = WContact (a_shape (o_x (hd_opt s))) (active (hd_before s) (hd_off s) (hd_force s))
  | KPressure => exists e, m = WPressure e (amap (fun f => f / sf_area (hd_before s)) (forces s))
  | KDispl => m = WLength unit (hd_u s)
  | KGap => exists d, binop Rminus (hd_u s) (heights (hd_after s)) = Ret d
      /\ m = WLength unit (amap (fun z => z - hd_position s) d)
  end.

(** The maps of a run: in the files with the names of the options. *)
Definition maps_complete active unit (single : bool) (a : hw_args) (ss : list hdone) (ev : list event) : Prop :=
  forall k fn i s, option_of k a = Some fn -> nth_error ss i = Some s ->
    exists m, In (file_name single fn i, m) (files ev) /\ map_of active unit k s m.
Definition maps_sound active unit (single : bool) (a : hw_args) (ss : list hdone) (ev : list event) : Prop :=
  forall n m, In (n, m) (files ev) ->
    exists k fn i s, option_of k a = Some fn /\ nth_error ss i = Some s /\ n = file_name single fn i
      /\ map_of active unit k s m.

(** What the finished calculations of a run are. *)
Record hw_explains (solver : substrate -> surface -> option R -> option R -> option R -> option R -> nat -> res oresult)
    (a : hw_args) (sb : substrate) (total : R) (sf0 : surface) (cs : list hw_command) (ss : list hdone) : Prop := mkHx {
  hx_solver : forall s, In s ss ->
    solver sb (hd_before s) (match hw_hardness a with Some _ => Some (sf_hardness sf0 * sf_area sf0) | None => None end)
      (hd_off s) (hd_force s) (hw_pentol a) (hw_maxiter a) = Ret (hd_opt s);
  hx_fields : forall s, In s ss -> exists n0 n1, a_shape (forces s) = [n0; n1]
    /\ head_slice [n0; n1] (o_x (hd_opt s)) = Ret (hd_u s);
  hx_pressures : forall i p s, nth_error cs i = Some (Pressure p) -> nth_error ss i = Some s ->
    hd_off s = None /\ hd_force s = Some (p * total) /\ hd_position s = o_offset (hd_opt s) /\ hd_load s = p;
  hx_next : (forall c, In c cs -> c = Next) -> forall i s, nth_error ss i = Some s ->
    hd_force s = None /\ hd_off s = Some (hd_position s) /\ hd_load s = asum (forces s) / total
    /\ exists top bot, is_max (heights (hd_before s)) top /\ is_min (heights (hd_before s)) bot
       /\ ((0 < size (sf_grid sf0))%nat -> chosen top (amean (heights (hd_before s))) bot (size (sf_grid sf0))
            (map (fun t => (hd_position t, contact_points (forces t) / INR (size (sf_grid sf0)))) (firstn i ss))
            (hd_position s));
  hx_grid : forall s, In s ss -> sf_grid (hd_before s) = sf_grid sf0 /\ sf_grid (hd_after s) = sf_grid sf0
    /\ sf_area (hd_before s) = sf_area sf0 /\ sf_area (hd_after s) = sf_area sf0;
  hx_elastic : hw_hardness a = None -> forall s, In s ss -> hd_before s = sf0 /\ hd_after s = sf0;
  hx_first : forall s, nth_error ss 0 = Some s -> hd_before s = sf0;
  hx_chain : forall i s t, nth_error ss i = Some s -> nth_error ss (S i) = Some t -> hd_before t = hd_after s;
  hx_plastic : hw_hardness a <> None -> forall s, In s ss ->
    (o_success (hd_opt s) = false -> hd_after s = hd_before s)
    /\ (o_success (hd_opt s) = true -> exists g, compute_gap sb (hd_before s) (o_x (hd_opt s)) (o_offset (hd_opt s)) = Ret g
        /\ forall x y, a_val (heights (hd_after s)) x y
                      = a_val (heights (hd_before s)) x y + (if o_plastic (hd_opt s) x y then a_val g x y else 0)) }.

(** ** The arguments *)
(** The unit of lengths: the one asked for, else the one of the file. *)
Definition unit_name (a : hw_args) (file_unit : option string) : string :=
  match hw_size_unit a, file_unit with
  | Some u, _ => u
  | None, Some u => u
  | None, None => "N/A"
  end.

(** [t] is the topography of the calculations for the topography [t0] of the
    file: multiplied by a factor, then detrended, then made plastic. *)
Record prepared (detrend : string -> surface -> res surface) (unit : string) (a : hw_args) (t0 t : scanned) : Prop := mkPrep {
  pr_sizes : sc_sizes t = sc_sizes t0;
  pr_periodic : sc_periodic t = sc_periodic t0;
  pr_surface : exists factor sf1 sf2,
    (hw_height_unit a = None -> factor = match hw_height_fac a with Some c => c | None => 1 end)
    /\ (forall h, hw_height_unit a = Some h -> exists meters own, unit_to_meters h = Ret meters /\ unit_to_meters unit = Ret own
         /\ factor * own = match hw_height_fac a with Some c => c | None => 1 end * meters)
    /\ sf_grid sf1 = sf_grid (sc_surface t0) /\ sf_area sf1 = sf_area (sc_surface t0)
    /\ (forall i j, a_val (heights sf1) i j = factor * a_val (heights (sc_surface t0)) i j)
    /\ (hw_detrend a = None -> sf2 = sf1) /\ (forall d, hw_detrend a = Some d -> detrend d sf1 = Ret sf2)
    /\ sf_grid (sc_surface t) = sf_grid sf2 /\ sf_area (sc_surface t) = sf_area sf2
    /\ (forall i j, a_val (heights (sc_surface t)) i j = a_val (heights sf2) i j)
    /\ (forall h, hw_hardness a = Some h -> sf_hardness (sc_surface t) = h) }.

Fixpoint no_comma (s : string) : Prop :=
  match s with EmptyString => True | String c s' => c <> ","%char /\ no_comma s' end.

(** [l] are [n] equally spaced values from [lo] to [hi]. *)
Definition equally_spaced (lo hi : R) (n : Z) (l : list R) : Prop :=
  Z.of_nat (List.length l) = n
  /\ (forall x, nth_error l 0 = Some x -> x = lo)
  /\ (forall x, (2 <= n)%Z -> nth_error l (List.length l - 1) = Some x -> x = hi)
  /\ forall i x y z, nth_error l i = Some x -> nth_error l (S i) = Some y -> nth_error l (S (S i)) = Some z -> z - y = y - x.

(** The pressures asked for by [--pressure] and [--pressure-from-file]; None:
    automatic. *)
Inductive asked (float_of : string -> res R) (int_of : string -> res Z) (a : hw_args) : option (list R) -> Prop :=
| AskedNone : hw_pressure a = None -> hw_pressure_file a = None -> asked float_of int_of a None
| AskedOne : forall s x, hw_pressure a = Some s -> no_comma s -> float_of s = Ret x ->
    asked float_of int_of a (Some [x])
| AskedRange : forall s0 s1 s2 x y n l, hw_pressure a = Some (s0 ++ "," ++ s1 ++ "," ++ s2)%string ->
    no_comma s0 -> no_comma s1 -> no_comma s2 -> float_of s0 = Ret x -> float_of s1 = Ret y -> int_of s2 = Ret n ->
    equally_spaced x y n l -> asked float_of int_of a (Some l)
| AskedFile : forall l, hw_pressure a = None -> hw_pressure_file a = Some (Ret l) ->
    asked float_of int_of a (Some l).

(** The calculations asked for; [single]: names without a number. *)
Definition plan (o : option (list R)) : list hw_command * bool :=
  match o with
  | Some l => (map Pressure l, Nat.eqb (List.length l) 1)
  | None => (repeat Next 20, false)
  end.

(** A solver that keeps the shapes and a prescribed offset. *)
Definition well_shaped (solver : substrate -> surface -> option R -> option R -> option R -> option R -> nat -> res oresult) : Prop :=
  forall sb sf h off force pentol maxiter n m, sf_grid sf = [n; m] -> exists r n' m',
    solver sb sf h off force pentol maxiter = Ret r /\ a_shape (o_jac r) = [n; m]
    /\ a_shape (o_x r) = [n'; m'] /\ (n <= n')%nat /\ (m <= m')%nat.
Definition keeps_offset (solver : substrate -> surface -> option R -> option R -> option R -> option R -> nat -> res oresult) : Prop :=
  forall sb sf h x force pentol maxiter r, solver sb sf h (Some x) force pentol maxiter = Ret r -> o_offset r = x.

(** A thickness that the program accepts and that stands for a layer of a compressible
    material on a rigid base, or none. *)
Definition possible_layer (a : hw_args) : Prop :=
  hw_thickness a = None
  \/ (hw_boundary a = "periodic"%string /\ exists d, hw_thickness a = Some d /\ 0 < d /\ hw_poisson a < 1 / 2).
