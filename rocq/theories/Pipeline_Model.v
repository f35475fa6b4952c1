(** * Model of /repo/ContactMechanics/PipelineFunction.py

    Simplifications:
    - serial run; warnings and log output are left out;
    - [nsteps] is an int, [offsets] and [pressures] are lists, [hardness] is a
      number or None, and the topography has physical sizes;
    - the minimisation called through [system.minimize_proxy] is an arbitrary
      function of substrate, surface and arguments that returns a result object
      or raises; [minimize_proxy] itself is the one of Systems_Model.v;
    - [rms_height_from_area] (SurfaceTopography) is an arbitrary function;
    - the callback receives the maps and numbers of a step and may raise. *)
From Coq Require Import Reals ZArith List Arith Bool String.
From Verif Require Import Py FFT_Base HalfSpace_Model Free_Model Systems_Model Factory_Model.
Import ListNotations.
Local Open Scope R_scope.

(** ** numpy *)
(** [np.mean(a)]; of an empty array it is nan, here 0. *)
Definition amean (a : arr) : R := asum a / INR (size (a_shape a)).
(** [np.max(a)], [np.min(a)] *)
Definition aentries (a : arr) : list R := map (flat a) (seq 0 (size (a_shape a))).
Definition amax (a : arr) : res R :=
  match aentries a with [] => Exc ValueErr | x :: l => Ret (fold_left Rmax l x) end.
Definition amin (a : arr) : res R :=
  match aentries a with [] => Exc ValueErr | x :: l => Ret (fold_left Rmin l x) end.
(** [(a > 0).sum()] *)
Definition count_positive (a : arr) : R :=
  asum (amap (fun x => if Rlt_dec 0 x then 1 else 0) a).

(** ** Results *)
(** What the callback receives. *)
Record output := mkOut {
  out_disp : arr; out_gap : arr; out_pressure : arr; out_contact : list nat * zone;
  out_offset : R; out_load : R; out_area : R }.
Record history := mkHist {
  h_disps : list R; h_gaps : list R; h_press : list R; h_areas : list R; h_conv : list bool }.

(** Arguments of the solver. *)
Record solver_args := mkSa {
  sa_offset : option R; sa_force : option R; sa_pentol : R; sa_maxiter : nat }.

Section Calculation.
  (** [solver substrate surface hardness args]: the minimisation. *)
  Variable solver : substrate -> surface -> option R -> solver_args -> res oresult.
  Variable sb : substrate.
  Variable sizes : list R.           (* topography.physical_sizes *)
  Variable plastic : bool.           (* the system is plastic *)
  Variable resets : bool.            (* the topography has [plastic_displ] *)
  Variable pentol : R.
  Variable maxiter : nat.

  (** [system.minimize_proxy], for both systems. *)
  Definition proxy (a : solver_args) (w : state * surface) : state * surface * res oresult :=
    let (y, sf) := w in
    if plastic then plastic_minimize_proxy sb sf (fun h => solver sb sf (Some h) a) y
    else match minimize_proxy sb (solver sb sf None a) y with (y', r) => (y', sf, r) end.

  (** [_contact_calculation], lines 37-135. [middle] belongs to the heights
      before the calculation, the gaps to those after it. *)
  Definition contact_calculation (off force : option R) (h : option history) (w : state * surface)
    : state * surface * res (output * history) :=
    let middle := amean (heights (snd w)) in
    let h0 := match h with Some h0 => h0 | None => mkHist [] [] [] [] [] end in
    match proxy (mkSa off force pentol maxiter) w with
    | (w', Exc e) => (w', Exc e)
    | (w', Ret opt) =>
        (w',
         match a_shape (o_jac opt) with
         | [n0; n1] =>
             bind (head_slice [n0; n1] (o_x opt)) (fun disp =>
             let load := asum (o_jac opt) / fold_right Rmult 1 sizes in
             let area := count_positive (o_jac opt) / INR (size (sf_grid (snd w))) in
             bind (binop Rminus disp (heights (snd w'))) (fun d =>
             let gap := amap (fun z => if Rlt_dec (z - o_offset opt) 0 then 0 else z - o_offset opt) d in
             Ret (mkOut disp gap (amap (fun f => f / sb_area sb) (o_jac opt)) (positive_zone (o_jac opt))
                    (o_offset opt) load area,
                  mkHist (h_disps h0 ++ [o_offset opt])
                         (h_gaps h0 ++ [amean disp - middle - o_offset opt])
                         (h_press h0 ++ [load]) (h_areas h0 ++ [area]) (h_conv h0 ++ [o_success opt]))))
         | _ => Exc IndexError          (* force_xy.shape[1] *)
         end)
    end.

  (** ** [_next_contact_step], lines 138-226 *)

  (** [sorted(zip(...), key=lambda x: x[1])]: stable. *)
  Fixpoint insert (p : R * R) (l : list (R * R)) : list (R * R) :=
    match l with
    | [] => [p]
    | q :: l' => if Rlt_dec (snd p) (snd q) then p :: l else q :: insert p l'
    end.
  Definition sort_by_area (l : list (R * R)) : list (R * R) := fold_left (fun s p => insert p s) l [].

  (** Line 208: [ref_area[1:] - ref_area[:-1]] with [-ref_area[-1]] appended. *)
  Fixpoint differences (r : list R) : list R :=
    match r with
    | [] => []
    | [x] => [- x]
    | x :: ((y :: _) as r') => (y - x) :: differences r'
    end.
  (** [np.argmax]: the first of the largest entries. *)
  Fixpoint argmax_from (best : R) (ibest i : nat) (l : list R) : nat :=
    match l with
    | [] => ibest
    | x :: l' => if Rlt_dec best x then argmax_from x i (S i) l' else argmax_from best ibest (S i) l'
    end.
  Definition argmax (l : list R) : nat :=
    match l with [] => 0%nat | x :: l' => argmax_from x 0 1 l' end.
  Definition log10 (x : R) : R := ln x / ln 10.

  Definition next_displacement (top middle bot : R) (npts : nat) (h : option history) : R :=
    match h with
    | None => - middle
    | Some h =>
        match h_disps h with
        | [] => - middle
        | [_] => - top + 0.01 * (top - middle)
        | _ =>
            let s := sort_by_area (combine (h_disps h) (h_areas h)) in
            let i := argmax (differences (map (fun p => log10 (snd p + 1 / INR npts)) s)) in
            let disp j := fst (nth j s (0, 0)) in
            if Nat.eqb i (List.length (h_disps h) - 1)
            then bot + 2 * (disp (List.length s - 1)%nat - bot)
            else (disp i + disp (i + 1)%nat) / 2
        end
    end.

  Definition reset_plastic (sf : surface) : surface :=
    if resets then mkSurface (sf_grid sf) (sf_base sf) (fun _ _ => 0) (sf_hardness sf) (sf_area sf) else sf.

  Definition next_contact_step (h : option history) (w : state * surface)
    : state * surface * res (output * history) :=
    let w0 := (fst w, reset_plastic (snd w)) in
    let hs := heights (snd w0) in
    match bind (amax hs) (fun top => bind (amin hs) (fun bot => Ret (top, bot))) with
    | Exc e => (w0, Exc e)
    | Ret (top, bot) =>
        contact_calculation (Some (next_displacement top (amean hs) bot (size (sf_grid (snd w0))) h)) None h w0
    end.

  (** ** The loop of [contact_mechanics], lines 377-437 *)
  Inductive command := AtOffset (o : R) | AtForce (f : R) | Automatic.
  Definition calculation (c : command) : option history -> state * surface -> state * surface * res (output * history) :=
    match c with
    | AtOffset o => contact_calculation (Some o) None
    | AtForce f => contact_calculation None (Some f)
    | Automatic => next_contact_step
    end.

  (** [callback earlier now]; [calls]: what it was called with. *)
  Variable callback : list output -> output -> res unit.
  Fixpoint run (cs : list command) (h : option history) (calls : list output) (w : state * surface)
    : state * surface * list output * res (option history) :=
    match cs with
    | [] => (w, calls, Ret h)
    | c :: cs' =>
        match calculation c h w with
        | (w', Exc e) => (w', calls, Exc e)
        | (w', Ret (o, h')) =>
            match callback calls o with
            | Exc e => (w', calls ++ [o], Exc e)
            | Ret _ => run cs' (Some h') (calls ++ [o]) w'
            end
        end
    end.
End Calculation.

(** ** [contact_mechanics], lines 229-449 *)
Record cm_args := mkCm {
  cm_topography : surface;
  cm_sizes : list R;
  cm_periodic : bool;                 (* is_periodic *)
  cm_is_plastic : bool;               (* the topography is a PlasticTopography itself *)
  cm_substrate : option string;
  cm_nsteps : option Z;
  cm_offsets : option (list R);
  cm_pressures : option (list R);
  cm_hardness : option R;
  cm_maxiter : nat }.

(** Lines 296-310. *)
Definition substrate_name (a : cm_args) : string :=
  match cm_substrate a with
  | Some s => s
  | None => if cm_periodic a then "periodic" else "nonperiodic"
  end.
(** Lines 315-334. *)
Definition mode_ok (a : cm_args) : bool :=
  match cm_nsteps a, cm_offsets a, cm_pressures a with
  | Some _, None, None | None, Some _, None | None, None, Some _ => true
  | _, _, _ => false
  end.
Definition is_plastic_run (a : cm_args) : bool :=
  match cm_hardness a with Some h => if Rlt_dec 0 h then true else false | None => false end.
(** [PlasticTopography(self, hardness)]: the heights of [self] and no plastic
    displacement. *)
Definition cm_surface (a : cm_args) : surface :=
  let sf := cm_topography a in
  match cm_hardness a with
  | Some h => if Rlt_dec 0 h
              then mkSurface (sf_grid sf) (a_val (heights sf)) (fun _ _ => 0) h (sf_area sf)
              else sf
  | None => sf
  end.
Definition half_space_kwargs : kwargs := mkKw (Some 1) None None None None None false.
Definition make_half_space (name : string) (grid : list nat) (sizes : list R) : res substrate :=
  if String.eqb name "periodic" then call_periodic grid sizes half_space_kwargs
  else if String.eqb name "nonperiodic" then call_free grid sizes half_space_kwargs
  else Exc KeyErr.

Definition commands (a : cm_args) : list command :=
  match cm_offsets a, cm_pressures a, cm_nsteps a with
  | Some l, _, _ => map AtOffset l
  | None, Some l, _ => map (fun p => AtForce (p * fold_right Rmult 1 (cm_sizes a))) l
  | None, None, Some n => repeat Automatic (Z.to_nat n)
  | None, None, None => []
  end.

(** Lines 360-362; [np.mean(nb_grid_pts)]. *)
Definition mean_nat (g : list nat) : R := INR (fold_right plus 0%nat g) / INR (List.length g).
Definition penetration_tolerance (rms : R) (grid : list nat) : R :=
  Rmax (rms / (10 * mean_nat grid)) (/ 10 ^ 12).

(** The returned tuple: pressures, areas, displacements, gaps, converged. *)
Definition arrays : Type := list R * list R * list R * list R * list bool.

Definition contact_mechanics (solver : substrate -> surface -> option R -> solver_args -> res oresult)
    (rms : arr -> R) (callback : list output -> output -> res unit) (a : cm_args)
  : list output * res arrays :=
  if negb (mode_ok a) then ([], Exc ValueErr)
  else
    let sf := cm_surface a in
    match bind (make_half_space (substrate_name a) (sf_grid sf) (cm_sizes a)) (fun sb =>
          bind (build (if is_plastic_run a then PlasticNonSmooth else NonSmooth)
                  (STopo (mkTopo sf (Some (cm_sizes a)) (cm_periodic a))) (SubInstance sb) None
                  (mkKw None None None None None None false)) (fun sys =>
          Ret (sb, sy_state sys))) with
    | Exc e => ([], Exc e)
    | Ret (sb, y) =>
        let pentol := penetration_tolerance (rms (heights sf)) (sf_grid sf) in
        match run solver sb (cm_sizes a) (is_plastic_run a) (orb (is_plastic_run a) (cm_is_plastic a)) pentol
                (cm_maxiter a) callback (commands a) None [] (y, sf) with
        | (_, calls, Exc e) => (calls, Exc e)
        | (_, calls, Ret None) => (calls, Exc TypeErr)
        | (_, calls, Ret (Some h)) => (calls, Ret (h_press h, h_areas h, h_disps h, h_gaps h, h_conv h))
        end
    end.
