(** * Vocabulary of the pipeline theorems *)
From Coq Require Import Reals ZArith List Arith Bool String Permutation.
From Verif Require Import Py FFT_Base HalfSpace_Model Systems_Model Factory_Model Pipeline_Model.
Import ListNotations.
Local Open Scope R_scope.

(** A finished step: the surface on which the solver was called and as it was
    left, the arguments and the result of the solver, what the callback got. *)
Record done := mkDone {
  dn_before : surface; dn_after : surface; dn_args : solver_args; dn_opt : oresult; dn_out : output }.

(** Number of calculations asked for. *)
Definition requested (a : cm_args) : nat :=
  match cm_offsets a, cm_pressures a, cm_nsteps a with
  | Some l, _, _ => List.length l
  | None, Some l, _ => List.length l
  | None, None, Some n => Z.to_nat n
  | None, None, None => 0%nat
  end.

(** Stable sorting: [s] has the same records as [l] in the order of their
    areas, and records of equal area stay in order. *)
Definition sorted_by_area (l s : list (R * R)) : Prop :=
  Permutation l s
  /\ (forall i j, (i < j < List.length s)%nat -> snd (nth i s (0, 0)) <= snd (nth j s (0, 0)))
  /\ forall a, filter (fun p => if Req_EM_T (snd p) a then true else false) l
             = filter (fun p => if Req_EM_T (snd p) a then true else false) s.

(** Growth of the area from record [j] to the next, from the last one to full
    contact; one grid point of [n] is added to every area. *)
Definition growth (n : nat) (s : list (R * R)) (j : nat) : R :=
  let area k := snd (nth k s (0, 0)) + / INR n in
  (if Nat.eqb (S j) (List.length s) then 1 else area (S j)) / area j.

(** The displacement that comes after the records [(displacement, area)]. *)
Definition chosen (top middle bot : R) (n : nat) (records : list (R * R)) (x : R) : Prop :=
  match records with
  | [] => x = - middle
  | [_] => x = - top + (top - middle) / 100
  | _ =>
      exists s j, sorted_by_area records s /\ (j < List.length s)%nat
      /\ (forall k, (k < List.length s)%nat -> growth n s k <= growth n s j)
      /\ (forall k, (k < j)%nat -> growth n s k < growth n s j)
      /\ x = if Nat.eqb (S j) (List.length s)
             then 2 * fst (nth j s (0, 0)) - bot
             else (fst (nth j s (0, 0)) + fst (nth (S j) s (0, 0))) / 2
  end.

Definition is_max (a : arr) (m : R) : Prop :=
  (exists k, (k < size (a_shape a))%nat /\ m = flat a k) /\ forall k, (k < size (a_shape a))%nat -> flat a k <= m.
Definition is_min (a : arr) (m : R) : Prop :=
  (exists k, (k < size (a_shape a))%nat /\ m = flat a k) /\ forall k, (k < size (a_shape a))%nat -> m <= flat a k.

(** No plastic displacement. *)
Definition undeformed (sf : surface) : Prop := forall i j, sf_plastic sf i j = 0.

(** What the system is for a solver: half-space and hardness (as a force). *)
Definition hardness_of (a : cm_args) : option R :=
  if is_plastic_run a then match cm_hardness a with Some h => Some (h * sf_area (cm_topography a)) | None => None end
  else None.

(** Lower bound 1e-12 for the tolerance. *)
Definition tolerance (rms : arr -> R) (a : cm_args) : R :=
  let g := sf_grid (cm_topography a) in
  let t := rms (heights (cm_topography a)) / (10 * (INR (fold_right plus 0%nat g) / INR (List.length g))) in
  if Rle_dec t (/ 10 ^ 12) then / 10 ^ 12 else t.

(** Records of the first steps: displacement and area. *)
Definition record_of (s : done) : R * R := (o_offset (dn_opt s), out_area (dn_out s)).

(** The output of a step, for a substrate with [area] per point and a surface
    of total size [total]. *)
Definition gives_output (area total : R) (s : done) : Prop :=
  exists n0 n1 d,
    a_shape (o_jac (dn_opt s)) = [n0; n1]
    /\ head_slice [n0; n1] (o_x (dn_opt s)) = Ret (out_disp (dn_out s))
    /\ binop Rminus (out_disp (dn_out s)) (heights (dn_after s)) = Ret d
    /\ out_gap (dn_out s) = amap (fun z => Rmax 0 (z - o_offset (dn_opt s))) d
    /\ out_pressure (dn_out s) = amap (fun f => f / area) (o_jac (dn_opt s))
    /\ out_contact (dn_out s) = positive_zone (o_jac (dn_opt s))
    /\ out_offset (dn_out s) = o_offset (dn_opt s)
    /\ out_load (dn_out s) = asum (o_jac (dn_opt s)) / total
    /\ out_area (dn_out s) = count_positive (o_jac (dn_opt s)) / INR (size (sf_grid (dn_before s))).

(** What the finished steps of a run are. *)
Record explains (solver : substrate -> surface -> option R -> solver_args -> res oresult) (rms : arr -> R)
    (a : cm_args) (sb : substrate) (ss : list done) : Prop := mkExplains {
  (* a half-space of contact modulus one over the whole topography *)
  ex_substrate : make_half_space (substrate_name a) (sf_grid (cm_topography a)) (cm_sizes a) = Ret sb;
  (* the result of every step is what the solver returns *)
  ex_solver : forall s, In s ss -> solver sb (dn_before s) (hardness_of a) (dn_args s) = Ret (dn_opt s);
  ex_settings : forall s, In s ss -> sa_pentol (dn_args s) = tolerance rms a /\ sa_maxiter (dn_args s) = cm_maxiter a;
  (* called with the requested values, one after the other *)
  ex_offsets : forall l, cm_offsets a = Some l -> forall i s, nth_error ss i = Some s ->
    (i < List.length l)%nat /\ sa_offset (dn_args s) = nth_error l i /\ sa_force (dn_args s) = None;
  ex_pressures : forall l, cm_pressures a = Some l -> forall i s, nth_error ss i = Some s ->
    (i < List.length l)%nat
    /\ sa_force (dn_args s) = option_map (fun p => p * fold_right Rmult 1 (cm_sizes a)) (nth_error l i)
    /\ sa_offset (dn_args s) = None;
  ex_nsteps : forall n, cm_nsteps a = Some n -> forall i s, nth_error ss i = Some s ->
    (Z.of_nat i < n)%Z /\ sa_force (dn_args s) = None
    /\ exists x top bot, sa_offset (dn_args s) = Some x
       /\ is_max (heights (dn_before s)) top /\ is_min (heights (dn_before s)) bot
       /\ chosen top (amean (heights (dn_before s))) bot (size (sf_grid (cm_topography a)))
            (map record_of (firstn i ss)) x;
  (* the surface: the topography itself, changed by plastic steps only *)
  ex_grid : forall s, In s ss -> sf_grid (dn_before s) = sf_grid (cm_topography a)
    /\ sf_grid (dn_after s) = sf_grid (cm_topography a);
  ex_elastic : is_plastic_run a = false -> forall s, In s ss -> dn_after s = dn_before s
    /\ (cm_nsteps a = None \/ cm_is_plastic a = false -> dn_before s = cm_topography a);
  ex_plastic : is_plastic_run a = true -> forall s, In s ss ->
    (o_success (dn_opt s) = false -> dn_after s = dn_before s)
    /\ (o_success (dn_opt s) = true -> exists g, compute_gap sb (dn_before s) (o_x (dn_opt s)) (o_offset (dn_opt s)) = Ret g
        /\ forall x y, a_val (heights (dn_after s)) x y
                      = a_val (heights (dn_before s)) x y + (if o_plastic (dn_opt s) x y then a_val g x y else 0));
  ex_first : cm_nsteps a = None -> forall s, nth_error ss 0 = Some s -> heights (dn_before s) = heights (cm_topography a);
  ex_chain : cm_nsteps a = None -> forall i s t, nth_error ss i = Some s -> nth_error ss (S i) = Some t ->
    dn_before t = dn_after s;
  ex_fresh : is_plastic_run a = true -> cm_nsteps a <> None -> forall s, In s ss ->
    heights (dn_before s) = heights (cm_topography a);
  (* a topography that is plastic itself loses its plastic displacement *)
  ex_wiped : cm_is_plastic a = true -> cm_nsteps a <> None -> forall s, In s ss -> undeformed (dn_before s);
  ex_output : forall s, In s ss -> gives_output (sb_area sb) (fold_right Rmult 1 (cm_sizes a)) s }.

(** The five returned arrays. *)
Definition gap_of (s : done) : R :=
  amean (out_disp (dn_out s)) - amean (heights (dn_before s)) - o_offset (dn_opt s).
Definition returned (ss : list done) : arrays :=
  (map (fun s => out_load (dn_out s)) ss, map (fun s => out_area (dn_out s)) ss,
   map (fun s => o_offset (dn_opt s)) ss, map gap_of ss, map (fun s => o_success (dn_opt s)) ss).

(** Componentwise concatenation of returned arrays. *)
Definition join (x y : arrays) : arrays :=
  match x, y with (p, a, d, g, c), (p', a', d', g', c') => (p ++ p', a ++ a', d ++ d', g ++ g', c ++ c') end.
Definition take (n : nat) (x : arrays) : arrays :=
  match x with (p, a, d, g, c) => (firstn n p, firstn n a, firstn n d, firstn n g, firstn n c) end.

(** A callback that never raises. *)
Definition quiet (callback : list output -> output -> res unit) : Prop :=
  forall l o, callback l o = Ret tt.
Definition set_offsets (l : list R) (a : cm_args) : cm_args :=
  mkCm (cm_topography a) (cm_sizes a) (cm_periodic a) (cm_is_plastic a) (cm_substrate a) None (Some l) None
    (cm_hardness a) (cm_maxiter a).
Definition set_pressures (l : list R) (a : cm_args) : cm_args :=
  mkCm (cm_topography a) (cm_sizes a) (cm_periodic a) (cm_is_plastic a) (cm_substrate a) None None (Some l)
    (cm_hardness a) (cm_maxiter a).
Definition set_nsteps (n : Z) (a : cm_args) : cm_args :=
  mkCm (cm_topography a) (cm_sizes a) (cm_periodic a) (cm_is_plastic a) (cm_substrate a) (Some n) None None
    (cm_hardness a) (cm_maxiter a).
Definition set_substrate (s : option string) (a : cm_args) : cm_args :=
  mkCm (cm_topography a) (cm_sizes a) (cm_periodic a) (cm_is_plastic a) s (cm_nsteps a) (cm_offsets a) (cm_pressures a)
    (cm_hardness a) (cm_maxiter a).
