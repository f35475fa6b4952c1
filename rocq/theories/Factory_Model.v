(** * Model of /repo/ContactMechanics/Factory.py

    Simplifications: serial run; [communicator] and [fft] have no influence on
    the result and are left out; the keyword [superclass] of the periodic
    half-space (documented as internal) is left out. *)
From Coq Require Import Reals List Arith Bool String.
From Verif Require Import Py FFT_Base HalfSpace_Model Free_Model Systems_Model.
Import ListNotations.
Local Open Scope R_scope.

(** A topography (SurfaceTopography package). *)
Record topography := mkTopo {
  tp_surface : surface;
  tp_sizes : option (list R);       (* physical_sizes *)
  tp_periodic : bool }.             (* is_periodic *)

(** A reader (SurfaceTopography package): grid and sizes of the default
    channel, [is_periodic] if it has such an attribute, and
    [topography(subdomain_locations, nb_subdomain_grid_pts, physical_sizes)],
    an arbitrary function that may raise. *)
Record reader := mkReader {
  rd_grid : list nat;
  rd_sizes : option (list R);
  rd_periodic : option bool;
  rd_topography : list nat -> list nat -> list R -> res topography }.

(** The argument [surface]: a file name or file-like object together with
    what [open_topography] makes of it, a topography, a reader, or an object
    that is none of these. *)
Inductive surface_arg :=
| SFile (opened : res reader)
| STopo (t : topography)
| SReader (r : reader)
| SOther.

(** The argument [substrate]. *)
Inductive substrate_arg :=
| SubNone
| SubName (s : string)
| SubInstance (s : substrate).

(** [**kwargs]; [kw_unknown]: some keyword no half-space has. *)
Record kwargs := mkKw {
  kw_young : option R;
  kw_q0 : option (option R);
  kw_thick : option (option R);
  kw_poisson : option R;
  kw_check : option bool;
  kw_engine : option (option (list nat));
  kw_unknown : bool }.

Definition given {A} (o : option A) : bool := match o with Some _ => true | None => false end.
Definition default {A} (d : A) (o : option A) : A := match o with Some a => a | None => d end.

(** Calls with keyword arguments; signatures FFTElasticHalfSpace.py 169-181
    and 912-921. *)
Definition call_periodic (grid : list nat) (sizes : list R) (k : kwargs) : res substrate :=
  if orb (kw_unknown k) (given (kw_check k)) then Exc TypeErr
  else match kw_young k with
       | None => Exc TypeErr
       | Some young =>
           bind (construct (mkArgs grid young sizes (default None (kw_q0 k))
                   (default None (kw_thick k)) (default 0 (kw_poisson k))
                   (default None (kw_engine k))))
                (fun s => Ret (periodic s))
       end.
Definition call_free (grid : list nat) (sizes : list R) (k : kwargs) : res substrate :=
  if orb (kw_unknown k) (orb (given (kw_q0 k)) (orb (given (kw_thick k)) (given (kw_poisson k))))
  then Exc TypeErr
  else match kw_young k with
       | None => Exc TypeErr
       | Some young =>
           bind (free_construct (mkFargs grid young sizes (default None (kw_engine k))
                   (default false (kw_check k))))
                (fun s => Ret (free s))
       end.

(** What the rest of [_make_system_args] sees after lines 63-70. *)
Inductive opened := OTopo (t : topography) | OReader (r : reader).
Definition open_arg (sf : surface_arg) : res opened :=
  match sf with
  | SFile r => bind r (fun r => Ret (OReader r))
  | STopo t => Ret (OTopo t)
  | SReader r => Ret (OReader r)
  | SOther => Exc AttributeErr                       (* line 75 *)
  end.

(** [_make_system_args], lines 42-112. *)
Definition make_system_args (sf : surface_arg) (sb : substrate_arg)
    (physical_sizes : option (list R)) (k : kwargs) : res (substrate * topography) :=
  bind (open_arg sf) (fun o =>
  let grid := match o with OTopo t => sf_grid (tp_surface t) | OReader r => rd_grid r end in
  let own := match o with OTopo t => tp_sizes t | OReader r => rd_sizes r end in
  bind (match physical_sizes with
        | Some l => Ret l
        | None => match own with Some l => Ret l | None => Exc ValueErr end
        end) (fun sizes =>
  (* lines 93-94 *)
  bind (match sb with
        | SubNone =>
            match o with
            | OTopo t => Ret (SubName (if tp_periodic t then "periodic" else "free"))
            | OReader r => match rd_periodic r with
                           | Some b => Ret (SubName (if b then "periodic" else "free"))
                           | None => Exc AttributeErr
                           end
            end
        | _ => Ret sb
        end) (fun sb =>
  (* lines 95-102; None: still a string, of which every attribute is missing *)
  bind (match sb with
        | SubName s =>
            if String.eqb s "periodic" then bind (call_periodic grid sizes k) (fun x => Ret (Some x))
            else if String.eqb s "free" then bind (call_free grid sizes k) (fun x => Ret (Some x))
            else Ret None
        | SubInstance x => Ret (Some x)
        | SubNone => Ret None
        end) (fun x =>
  match x with
  | None => Exc AttributeErr            (* line 107, or Systems.py line 68 *)
  | Some x =>
      match o with
      | OTopo t => Ret (x, t)
      | OReader r =>
          bind (rd_topography r (map (fun _ => 0%nat) (sb_grid x)) (sb_topo x) sizes)
               (fun t => Ret (x, t))
      end
  end)))).

(** A system: class, substrate, topography, initial state. *)
Inductive system_class := NonSmooth | PlasticNonSmooth.
Record system := mkSystem {
  sy_class : system_class;
  sy_substrate : substrate;
  sy_topography : topography;
  sy_state : state }.

Definition build (c : system_class) (sf : surface_arg) (sb : substrate_arg)
    (physical_sizes : option (list R)) (k : kwargs) : res system :=
  bind (make_system_args sf sb physical_sizes k) (fun p =>
  bind (make (fst p) (tp_surface (snd p))) (fun y =>
  Ret (mkSystem c (fst p) (snd p) y))).

(** [make_system], lines 115-134, and [make_plastic_system], lines 137-156. *)
Definition make_system := build NonSmooth.
Definition make_plastic_system := build PlasticNonSmooth.

(** [make_contact_system], lines 159-175, and [make_plastic_contact_system],
    lines 178-179: [surface=topography] together with [*args].  With
    [positional] > 0 the first of these is also [surface]. *)
Definition make_contact_system (t : topography) (positional : nat) (sb : substrate_arg)
    (physical_sizes : option (list R)) (k : kwargs) : res system :=
  if Nat.eqb positional 0 then make_system (STopo t) sb physical_sizes k else Exc TypeErr.
Definition make_plastic_contact_system (t : topography) (positional : nat) (sb : substrate_arg)
    (physical_sizes : option (list R)) (k : kwargs) : res system :=
  if Nat.eqb positional 0 then make_plastic_system (STopo t) sb physical_sizes k else Exc TypeErr.
