(** * Model of /repo/ContactMechanics/CommandLineInterface/HardWall.py

    Simplifications:
    - serial run; the messages on the screen are left out; the text of the
      maps, with the version and command lines, is in TextMap_Model.v;
    - the arguments are those after [parse_args]; [maxiter] is not negative;
    - the reader of the topography file, [detrend] (SurfaceTopography) and the
      conversions [float] and [int] of strings are arbitrary functions;
    - the minimisation called through [system.minimize_proxy] is an arbitrary
      function of its arguments, as in Pipeline_Model.v; its [active_set] has
      the shape of [x] (ConstrainedConjugateGradients.py 227, 463, 503);
    - text and NetCDF files are events with the numbers written; opening,
      [set_shape] and writing of the NetCDF file are in NetRun_Model.v. *)
From Coq Require Import Reals ZArith List Arith Bool String Ascii Decimal DecimalString.
From Verif Require Import Py FFT_Base HalfSpace_Model Free_Model Systems_Model Factory_Model Pipeline_Model.
From Coq Require Import List.
Import ListNotations.
Local Open Scope R_scope.

(** Arguments, lines 238-327.  [hw_pressure_file]: what
    [np.ravel(np.loadtxt(...))] returns or raises. *)
Record hw_args := mkHw {
  hw_detrend : option string;
  hw_boundary : string;
  hw_modulus : R;
  hw_poisson : R;
  hw_thickness : option R;
  hw_hardness : option R;
  hw_maxiter : nat;
  hw_displacement : option string;
  hw_pressure : option string;
  hw_pressure_file : option (res (list R));
  hw_size_unit : option string;
  hw_height_fac : option R;
  hw_height_unit : option string;
  hw_pentol : option R;
  hw_contact_fn : option string;
  hw_pressure_fn : option string;
  hw_displ_fn : option string;
  hw_gap_fn : option string;
  hw_netcdf : bool }.

(** Lines 54-57. *)
Definition unit_to_meters (s : string) : res R :=
  if String.eqb s "A" then Ret (/ 10 ^ 10)
  else if String.eqb s "nm" then Ret (/ 10 ^ 9)
  else if String.eqb s "µm" then Ret (/ 10 ^ 6)
  else if String.eqb s "mm" then Ret (/ 10 ^ 3)
  else if String.eqb s "m" then Ret 1
  else if String.eqb s "unknown" then Ret 1
  else Exc KeyErr.

(** [s.split(',')] *)
Fixpoint split_comma (s : string) : list string :=
  match s with
  | EmptyString => [EmptyString]
  | String c s' =>
      if Ascii.eqb c "," then EmptyString :: split_comma s'
      else match split_comma s' with
           | [] => [String c EmptyString]
           | t :: l => String c t :: l
           end
  end.

(** [np.linspace(a, b, n)] *)
Definition linspace_to (a b : R) (n : Z) : res (list R) :=
  if (n <? 0)%Z then Exc ValueErr
  else if (n =? 1)%Z then Ret [a]
  else Ret (map (fun k => a + INR k * ((b - a) / INR (Z.to_nat n - 1))) (seq 0 (Z.to_nat n))).

(** [fn + suffix], [suffix] as in lines 444-446, 546-548. *)
Definition decimal (n : nat) : string := NilEmpty.string_of_uint (Nat.to_uint n).
Definition suffix (single : bool) (i : nat) : string :=
  if single then EmptyString else String.append "." (decimal i).
Definition file_name (single : bool) (fn : string) (i : nat) : string := String.append fn (suffix single i).

(** ** What is written *)
(** A line of the log file, lines 152-180. *)
Record row := mkRow {
  r_elastic : R; r_rigid : R; r_gap : R; r_load : R; r_pressure : R; r_area : R; r_fraction : R }.
(** A map: contact, pressure (with the value of [E*] in the header, None for
    "units of E*") or length (with its unit). *)
Inductive written :=
| WContact (s : list nat) (z : zone)
| WPressure (modulus : option R) (a : arr)
| WLength (unit : string) (a : arr).
(** [Saved fn map macro]: [macro] are the pairs in the comment header. *)
Inductive event :=
| Frame (u f : arr) (disp load area : R)
| Row (header : list string) (r : row)
| Saved (fn : string) (m : written) (macro : list (string * R)).

Definition row_data (r : row) : list R :=
  [r_elastic r; r_rigid r; r_gap r; r_load r; r_pressure r; r_area r; r_fraction r].
Definition in_unit (name unit : string) : string :=
  String.append name (String.append " (" (String.append unit ")")).
(** Lines 161-176; [estar]: [substrate.young == 1]. *)
Definition header (estar : bool) (unit : string) : list string :=
  let sq := String.append unit "^2" in
  let e := if estar then "E*"%string else "[Units of E*]"%string in
  [in_unit "mean elastic" unit; in_unit "mean rigid" unit; in_unit "mean gap" unit;
   in_unit "load" (String.append e (String.append " " sq)); in_unit "mean pressure" e;
   in_unit "area" sq; "fractional area"%string].

(** What [next_step] returns and what the pressure loop collects: [c], [u],
    [f], [disp0], [load], [area]. *)
Record step_out := mkStep {
  so_contact : list nat * zone; so_u : arr; so_f : arr; so_offset : R; so_load : R; so_area : R }.
(** [history]: disp, gap, load, area, converged. *)
Definition entry : Type := (R * R * R * R * bool)%type.
Definition e_disp (e : entry) : R := match e with (d, _, _, _, _) => d end.
Definition e_area (e : entry) : R := match e with (_, _, _, a, _) => a end.

(** [sorted(..., key=lambda x: x[3])] *)
Fixpoint insert_entry (p : entry) (l : list entry) : list entry :=
  match l with
  | [] => [p]
  | q :: l' => if Rlt_dec (e_area p) (e_area q) then p :: l else q :: insert_entry p l'
  end.
Definition sort_entries (l : list entry) : list entry := fold_left (fun s p => insert_entry p s) l [].

Section Run.
  (** [solver substrate surface hardness offset force pentol maxiter] *)
  Variable solver : substrate -> surface -> option R -> option R -> option R -> option R -> nat -> res oresult.
  (** The [active_set] of that call. *)
  Variable active : surface -> option R -> option R -> zone.
  Variable sb : substrate.
  Variable young : R.                (* substrate.young *)
  Variable sizes : list R.           (* surface.physical_sizes *)
  Variable unit : string.            (* surface.unit *)
  Variable a : hw_args.

  Definition is_plastic : bool := given (hw_hardness a).
  Definition total : R := fold_right Rmult 1 sizes.
  Definition hw_proxy (off force : option R) : state * surface -> state * surface * res oresult :=
    proxy (fun sb sf h s => solver sb sf h (sa_offset s) (sa_force s) (hw_pentol a) (sa_maxiter s))
      sb is_plastic (mkSa off force 0 (hw_maxiter a)).

  (** [opt.active_set], [opt.jac], [opt.x[:f.shape[0], :f.shape[1]]]:
      lines 134-136, 459-461. *)
  Definition fields (sf : surface) (off force : option R) (opt : oresult) : res ((list nat * zone) * arr * arr) :=
    match a_shape (o_jac opt) with
    | [n0; n1] =>
        bind (head_slice [n0; n1] (o_x opt)) (fun u =>
        Ret ((a_shape (o_x opt), active sf off force), u, o_jac opt))
    | _ => Exc IndexError
    end.

  (** Lines 103-129. *)
  Definition hw_displacement_of (top middle bot : R) (npts : nat) (h : list entry) : R :=
    match h with
    | [] => - middle
    | [_] => - top + 0.01 * (top - middle)
    | _ =>
        let i := argmax (differences (map (fun e => log10 (e_area e + 1 / INR npts)) h)) in
        let disp j := nth j (map e_disp h) 0 in
        if Nat.eqb i (List.length h - 1)
        then bot + 2 * (disp (List.length h - 1)%nat - bot)
        else (disp i + disp (i + 1)%nat) / 2
    end.

  (** [next_step], lines 62-155.  The empty history is None. *)
  Definition next_step (h : list entry) (w : state * surface)
    : state * surface * res (step_out * list entry) :=
    let profile := heights (snd w) in
    match bind (amax profile) (fun top => bind (amin profile) (fun bot => Ret (top, bot))) with
    | Exc e => (w, Exc e)
    | Ret (top, bot) =>
        let middle := amean profile in
        let npts := size (sf_grid (snd w)) in
        let disp0 := hw_displacement_of top middle bot npts h in
        match hw_proxy (Some disp0) None w with
        | (w', Exc e) => (w', Exc e)
        | (w', Ret opt) =>
            (w',
             bind (fields (snd w) (Some disp0) None opt) (fun x =>
             match x with (c, u, f) =>
               let load := asum f / total in
               let area := count_positive f / INR npts in
               Ret (mkStep c u f disp0 load area,
                    sort_entries (h ++ [(disp0, amean u - middle - disp0, load, area, o_success opt)]))
             end))
        end
    end.

  (** The body of the pressure loop up to line 471. *)
  Definition pressure_step (p : R) (w : state * surface) : state * surface * res step_out :=
    let force := Some (p * total) in
    match hw_proxy None force w with
    | (w', Exc e) => (w', Exc e)
    | (w', Ret opt) =>
        (w',
         bind (fields (snd w) None force opt) (fun x =>
         match x with (c, u, f) =>
           Ret (mkStep c u f (o_offset opt) p (count_positive f / INR (size (sf_grid (snd w)))))
         end))
    end.

  (** [dump], lines 158-184. *)
  Definition dump (sf : surface) (u f : arr) (offset : R) : list string * row :=
    let elastic := amean u in
    let rigid := amean (heights sf) + offset in
    let n := count_positive f in
    (header (if Req_EM_T young 1 then true else false) unit,
     mkRow elastic rigid (elastic - rigid) (asum f) (asum f / total) (n * sf_area sf)
       (n / INR (size (sf_grid sf)))).

  (** A file, if asked for.  [macro] is a [zip] object, empty after the
      first use. *)
  Definition save (fn : option string) (single : bool) (i : nat) (m : written) (macro : list (string * R))
    : list event * list (string * R) :=
    match fn with
    | Some fn => ([Saved (file_name single fn i) m macro], [])
    | None => ([], macro)
    end.

  (** Lines 472-483, 554-566: [sf] is the surface after the calculation. *)
  Definition emit (single : bool) (i : nat) (sf : surface) (o : step_out) : list event * res Datatypes.unit :=
    let nc := if hw_netcdf a then [Frame (so_u o) (so_f o) (so_offset o) (so_load o) (so_area o)] else [] in
    let (hd, r) := dump sf (so_u o) (so_f o) (so_offset o) in
    let (e1, m1) := save (hw_contact_fn a) single i (WContact (fst (so_contact o)) (snd (so_contact o)))
                      (combine hd (row_data r)) in
    let (e2, m2) := save (hw_pressure_fn a) single i
                      (WPressure (if Req_EM_T young 1 then None else Some young)
                         (amap (fun x => x / sf_area sf) (so_f o))) m1 in
    let (e3, m3) := save (hw_displ_fn a) single i (WLength unit (so_u o)) m2 in
    let before := nc ++ [Row hd r] ++ e1 ++ e2 ++ e3 in
    match hw_gap_fn a with
    | None => (before, Ret tt)
    | Some _ =>
        match binop Rminus (so_u o) (heights sf) with
        | Exc e => (before, Exc e)
        | Ret d => (before ++ fst (save (hw_gap_fn a) single i
                                     (WLength unit (amap (fun x => x - so_offset o) d)) m3), Ret tt)
        end
    end.

  Inductive hw_command := Pressure (p : R) | Next.
  Definition hw_step (c : hw_command) (h : list entry) (w : state * surface)
    : state * surface * res (step_out * list entry) :=
    match c with
    | Next => next_step h w
    | Pressure p => match pressure_step p w with (w', r) => (w', bind r (fun o => Ret (o, h))) end
    end.

  (** The loops, lines 443-483 and 543-566. *)
  Fixpoint hw_run (single : bool) (cs : list hw_command) (i : nat) (h : list entry) (w : state * surface)
    : list event * res Datatypes.unit :=
    match cs with
    | [] => ([], Ret tt)
    | c :: cs' =>
        match hw_step c h w with
        | (_, Exc e) => ([], Exc e)
        | (w', Ret (o, h')) =>
            match emit single i (snd w') o with
            | (ev, Exc e) => (ev, Exc e)
            | (ev, Ret _) => let (ev', r) := hw_run single cs' (S i) h' w' in (ev ++ ev', r)
            end
        end
    end.
End Run.

(** ** [main] *)
(** Lines 353-375 and 381-384: [load unit] is the topography that the reader
    returns for this unit, with its sizes and periodicity; [file_unit] is the
    unit of the file. *)
Definition given_unit (a : hw_args) (file_unit : option string) : option string :=
  match hw_size_unit a, file_unit with
  | Some u, _ => Some u
  | None, None => Some "N/A"%string
  | None, Some _ => None
  end.
Definition surface_unit (a : hw_args) (file_unit : option string) : string :=
  match given_unit a file_unit, file_unit with
  | Some u, _ => u
  | None, Some u => u
  | None, None => ""
  end.
Definition height_factor (a : hw_args) (unit : string) : res R :=
  let fac := match hw_height_fac a with Some x => x | None => 1 end in
  match hw_height_unit a with
  | None => Ret fac
  | Some h => bind (unit_to_meters h) (fun x => bind (unit_to_meters unit) (fun y => Ret (fac * (x / y))))
  end.
Definition scale_surface (c : R) (sf : surface) : surface :=
  mkSurface (sf_grid sf) (fun i j => c * sf_base sf i j) (fun i j => c * sf_plastic sf i j)
    (sf_hardness sf) (sf_area sf).
Record scanned := mkScan { sc_surface : surface; sc_sizes : list R; sc_periodic : bool }.

Section Main.
  Variable float_of : string -> res R.
  Variable int_of : string -> res Z.
  Variable detrend : string -> surface -> res surface.
  Variable load : option string -> res scanned.
  Variable file_unit : option string.
  Variable solver : substrate -> surface -> option R -> option R -> option R -> option R -> nat -> res oresult.
  Variable active : surface -> option R -> option R -> zone.

  (** Lines 353-390. *)
  Definition read_surface (a : hw_args) : res scanned :=
    bind (load (given_unit a file_unit)) (fun t =>
    bind (height_factor a (surface_unit a file_unit)) (fun fac =>
    bind (let sf := match hw_height_fac a, hw_height_unit a with
                    | None, None => sc_surface t
                    | _, _ => scale_surface fac (sc_surface t)
                    end in
          match hw_detrend a with None => Ret sf | Some d => detrend d sf end) (fun sf =>
    Ret (mkScan (match hw_hardness a with
                 | None => sf
                 | Some h => mkSurface (sf_grid sf) (a_val (heights sf)) (fun _ _ => 0) h (sf_area sf)
                 end) (sc_sizes t) (sc_periodic t))))).

  (** Lines 392-411, and [substrate.young]. *)
  Definition hw_substrate (a : hw_args) (t : scanned) : res (substrate * R) :=
    if String.eqb (hw_boundary a) "periodic" then
      bind (call_periodic (sf_grid (sc_surface t)) (sc_sizes t)
              (mkKw (Some (hw_modulus a)) None (Some (hw_thickness a)) (Some (hw_poisson a)) None None false))
        (fun s => Ret (s, hw_modulus a))
    else if String.eqb (hw_boundary a) "nonperiodic" then
      match hw_thickness a with
      | Some _ => Exc ValueErr
      | None =>
          let y := hw_modulus a / (1 - hw_poisson a ^ 2) in
          if Req_bool (1 - hw_poisson a ^ 2) 0 then Exc ZeroDivisionError else
          bind (call_free (sf_grid (sc_surface t)) (sc_sizes t) (mkKw (Some y) None None None None None false))
            (fun s => Ret (s, y))
      end
    else Exc ValueErr.

  (** Lines 416-419. *)
  Definition hw_system (a : hw_args) (t : scanned) (s : substrate) : res state :=
    bind (build (if given (hw_hardness a) then PlasticNonSmooth else NonSmooth)
            (STopo (mkTopo (sc_surface t) (Some (sc_sizes t)) (sc_periodic t))) (SubInstance s) None
            (mkKw None None None None None None false)) (fun y => Ret (sy_state y)).

  (** Lines 428-448: None if no pressures are given. *)
  Definition pressures_of (a : hw_args) : res (option (list R)) :=
    match hw_pressure a, hw_pressure_file a with
    | None, None => Ret None
    | p, file =>
        if given (hw_displacement a) then Exc ValueErr
        else match p, file with
             | Some s, _ =>
                 match split_comma s with
                 | [x] => bind (float_of x) (fun x => Ret (Some [x]))
                 | [x; y; n] =>
                     bind (float_of x) (fun x => bind (float_of y) (fun y => bind (int_of n) (fun n =>
                     bind (linspace_to x y n) (fun l => Ret (Some l)))))
                 | _ => Exc SystemExit
                 end
             | None, Some l => bind l (fun l => Ret (Some l))
             | None, None => Ret None
             end
    end.

  (** Lines 485-538: the number of points of [np.linspace] is a float, and the
      solver has no argument [kind] (ConstrainedConjugateGradients.py 34-50);
      the argument is bound before anything is computed. *)
  Definition displacement_run (s : string) : res Datatypes.unit :=
    match split_comma s with
    | [x] => bind (float_of x) (fun _ => Exc TypeErr)
    | [x; y; n] => bind (float_of x) (fun _ => bind (float_of y) (fun _ => bind (float_of n) (fun _ => Exc TypeErr)))
    | _ => Exc SystemExit
    end.

  (** [nsteps], line 46. *)
  Definition nsteps : nat := 20.

  Definition hw_main (a : hw_args) : list event * res Datatypes.unit :=
    match bind (read_surface a) (fun t => bind (hw_substrate a t) (fun s =>
          bind (hw_system a t (fst s)) (fun y => bind (pressures_of a) (fun p => Ret (t, s, y, p))))) with
    | Exc e => ([], Exc e)
    | Ret (t, s, y, p) =>
        let go := hw_run solver active (fst s) (snd s) (sc_sizes t) (surface_unit a file_unit) a in
        match p, hw_displacement a with
        | Some l, _ => go (Nat.eqb (List.length l) 1) (map Pressure l) 0%nat [] (y, sc_surface t)
        | None, Some d => ([], displacement_run d)
        | None, None => go (Nat.eqb nsteps 1) (repeat Next nsteps) 0%nat [] (y, sc_surface t)
        end
    end.
End Main.
