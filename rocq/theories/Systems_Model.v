(** * Model of the contact systems

    /repo/ContactMechanics/Systems.py, Substrates.py (lines 119-165) and
    PlasticSystemSpecialisations.py.

    Simplifications:
    - serial run ([communicator.size = 1]); [Reduction.sum] is then a sum.
      The one place where a local sum is reported ([evaluate_dual]) is also
      modelled for a decomposed run;
    - arrays have one or two axes; a one-dimensional array is a field with a
      single column (as in HalfSpace_Model.v);
    - loggers are left out (they do not influence the returned values);
    - optimisers of other packages (scipy, NuMPI) are arbitrary programs that
      query objective and Hessian product and finally return a result. *)

From Coq Require Import Reals ZArith Lia Lra List Arith Bool.
From Verif Require Import Py FFT_Base HalfSpace_Model Free_Model.
Import ListNotations.
Local Open Scope R_scope.

(** ** numpy *)

(** [np.prod(shape)], [ndarray.size]. *)
Definition size (g : list nat) : nat := fold_right Nat.mul 1%nat g.

(** Entry [k] in C order. *)
Definition flat (a : arr) (k : nat) : R :=
  let m := nth 1 (a_shape a) 1%nat in a_val a (k / m)%nat (k mod m)%nat.

Definition ravel (a : arr) : arr := mkArr [size (a_shape a)] (fun k _ => flat a k).

Definition reshape (a : arr) (g : list nat) : res arr :=
  if Nat.eqb (size (a_shape a)) (size g)
  then Ret (mkArr g (fun x y => flat a (x * nth 1 g 1 + y)%nat))
  else Exc ValueErr.

(** Broadcasting of one axis: extent and index map. *)
Definition bext (n m : nat) : option nat :=
  if Nat.eqb n m then Some n
  else if Nat.eqb n 1 then Some m else if Nat.eqb m 1 then Some n else None.
Definition bidx (n i : nat) : nat := if Nat.eqb n 1 then 0%nat else i.

(** Elementwise binary operation with broadcasting.  A one-dimensional
    operand of a two-dimensional one acts as a row. *)
Definition binop (op : R -> R -> R) (a b : arr) : res arr :=
  let two n0 n1 m0 m1 (va vb : field) :=
    match bext n0 m0, bext n1 m1 with
    | Some r, Some c =>
        Ret (mkArr [r; c] (fun x y => op (va (bidx n0 x) (bidx n1 y))
                                         (vb (bidx m0 x) (bidx m1 y))))
    | _, _ => Exc ValueErr
    end in
  match a_shape a, a_shape b with
  | [n], [m] => match bext n m with
                | Some r => Ret (mkArr [r] (fun x y => op (a_val a (bidx n x) y)
                                                          (a_val b (bidx m x) y)))
                | None => Exc ValueErr
                end
  | [n0; n1], [m0; m1] => two n0 n1 m0 m1 (a_val a) (a_val b)
  | [n], [m0; m1] => two 1%nat n m0 m1 (fun _ y => a_val a y 0%nat) (a_val b)
  | [n0; n1], [m] => two n0 n1 1%nat m (a_val a) (fun _ y => a_val b y 0%nat)
  | _, _ => Exc ValueErr
  end.

Definition amap (f : R -> R) (a : arr) : arr := mkArr (a_shape a) (fun x y => f (a_val a x y)).

(** [np.sum] *)
Definition asum (a : arr) : R := Rsum (size (a_shape a)) (flat a).

(** [a[tuple(slice(0, n) for n in ns)]] *)
Definition head_slice (ns : list nat) (a : arr) : res arr :=
  if Nat.ltb (length (a_shape a)) (length ns) then Exc IndexError
  else Ret (mkArr (map (fun p => Nat.min (fst p) (snd p)) (combine ns (a_shape a))
                   ++ skipn (length ns) (a_shape a)) (a_val a)).

(** ** Substrates as seen by the systems *)

Record substrate := mkSubstrate {
  sb_grid : list nat;                 (* nb_grid_pts *)
  sb_sizes : list R;                  (* physical_sizes *)
  sb_sub : list nat;                  (* nb_subdomain_grid_pts *)
  sb_topo : list nat;                 (* topography_nb_subdomain_grid_pts *)
  sb_area : R;                        (* area_per_pt *)
  sb_disp : arr -> res arr;           (* evaluate_disp *)
  sb_force : arr -> res arr;          (* evaluate_force *)
  sb_eval : arr -> bool -> bool -> res (option R * option arr);   (* evaluate *)
  sb_check : arr -> res unit }.       (* check(), given self.force *)

Definition periodic (s : sub) : substrate :=
  mkSubstrate (h_grid (s_hs s)) (h_sizes (s_hs s)) (h_grid (s_hs s)) (h_grid (s_hs s))
    (area_per_pt (s_hs s)) (evaluate_disp s) (evaluate_force s) (evaluate s)
    (fun _ => Ret tt).                (* Substrates.py 98-110 *)

(** [evaluate] (FFTElasticHalfSpace.py 841-862) of the padded classes: the
    forces and the energy live on the computational grid. *)
Definition dom_sub (s : fsub) : sub :=
  mkSub (mkHs (f_dom s) [] [] 0 0 0 None None) (fun _ _ => 0) (fun _ _ => 0).

(** [pnp.dot(np.ravel(a), np.ravel(b))], line 684. *)
Definition ravel_dot (a b : arr) : res R :=
  if Nat.eqb (size (a_shape a)) (size (a_shape b))
  then Ret (Rsum (size (a_shape a)) (fun k => flat a k * flat b k))
  else Exc ValueErr.
Definition f_evaluate (frc : arr -> res arr) (s : fsub) (u : arr) (pot forces : bool)
  : res (option R * option arr) :=
  if forces then
    bind (frc u) (fun f =>
    if pot then bind (ravel_dot u (amap Ropp f)) (fun p => Ret (Some (0.5 * p), Some f))
    else Ret (None, Some f))
  else if pot then
    bind (copy_into (f_dom s) u) (fun v =>
      let uk := fft2 (domx s) (domy s) v in
      let fk := fun k l => Complex.Cmult (Complex.Cmult (Complex.Copp (f_ss s k l)) (uk k l))
                             (Complex.RtoC (area_per_pt (f_hs s))) in
      Ret (Some (evaluate_elastic_energy_k_space (dom_sub s) (serial_ranks (dom_sub s)) fk uk), None))
  else Ret (None, None).

Definition f_check_force (s : fsub) (f : arr) : res unit :=
  check s (nx (f_hs s), ny (f_hs s)) [mkDec (0, 0)%nat (domx s, domy s)]
        (fun x y => Some (a_val f x y)).

Definition free (s : fsub) : substrate :=
  mkSubstrate (h_grid (f_hs s)) (h_sizes (f_hs s)) (f_dom s) (topo_shape s)
    (area_per_pt (f_hs s)) (fun f => free_disp s f false) (base_force s)
    (f_evaluate (base_force s) s) (f_check_force s).
Definition semi (s : fsub) : substrate :=
  mkSubstrate (h_grid (f_hs s)) (h_sizes (f_hs s)) (f_dom s) (topo_shape s)
    (area_per_pt (f_hs s)) (fun f => free_disp s f false) (semi_force s)
    (f_evaluate (semi_force s) s) (f_check_force s).

(** A topography.  [heights()] of a [PlasticTopography] (SurfaceTopography
    package) is the wrapped topography plus [plastic_displ]; for other
    topographies [sf_plastic] is zero. *)
Record surface := mkSurface {
  sf_grid : list nat;
  sf_base : field;
  sf_plastic : field;
  sf_hardness : R;
  sf_area : R }.
Definition heights (f : surface) : arr :=
  mkArr (sf_grid f) (fun x y => sf_base f x y + sf_plastic f x y).

(** ** State of a system (attributes that change) *)
Definition zone := nat -> nat -> bool.
Record state := mkState {
  y_gap : option arr; y_disp : option arr; y_energy : option R; y_force : option arr;
  y_zone : option (list nat * zone); y_offset : option R; y_gradient : option arr;
  y_senergy : option R; y_sforce : option arr; y_sdisp : option arr }.
(** After [__init__]: lines 70-73, 394-396; Substrates.py 119-122.  [offset],
    [gradient] and [substrate.disp] do not exist yet. *)
Definition fresh : state := mkState None None None None None None None None None None.

Definition set_gap g y := mkState (Some g) (y_disp y) (y_energy y) (y_force y) (y_zone y)
  (y_offset y) (y_gradient y) (y_senergy y) (y_sforce y) (y_sdisp y).
Definition set_sub e f y := mkState (y_gap y) (y_disp y) (y_energy y) (y_force y) (y_zone y)
  (y_offset y) (y_gradient y) e f (y_sdisp y).
Definition set_ef e f y := mkState (y_gap y) (y_disp y) e f (y_zone y)
  (y_offset y) (y_gradient y) (y_senergy y) (y_sforce y) (y_sdisp y).
Definition set_dual e g f u y := mkState (y_gap y) (y_disp y) (Some e) (y_force y) (y_zone y)
  (y_offset y) (Some g) (y_senergy y) (Some f) (Some u).
Definition set_gradient g y := mkState (y_gap y) (y_disp y) (y_energy y) (y_force y) (y_zone y)
  (y_offset y) (Some g) (y_senergy y) (y_sforce y) (y_sdisp y).
(** [self.disp = None; self.force = None; self.contact_zone = None] *)
Definition reset y := mkState (y_gap y) None (y_energy y) None None
  (y_offset y) (y_gradient y) (y_senergy y) (y_sforce y) (y_sdisp y).

(** Computations that change the state and may raise. *)
Definition M (A : Type) := state -> state * res A.
Definition mret {A} (a : A) : M A := fun y => (y, Ret a).
Definition lift {A} (r : res A) : M A := fun y => (y, r).
Definition mbind {A B} (m : M A) (k : A -> M B) : M B := fun y =>
  match m y with (y', Ret a) => k a y' | (y', Exc e) => (y', Exc e) end.
Definition upd (f : state -> state) : M unit := fun y => (f y, Ret tt).

(** ** [NonSmoothContactSystem.__init__], lines 381-396: the grids must agree
    ([compare_containers] of two tuples of ints). *)
Definition make (sb : substrate) (sf : surface) : res state :=
  if shape_eqb (sf_grid sf) (sb_grid sb) then Ret fresh else Exc IncompatibleResolutionErr.

Section System.
  Variable sb : substrate.
  Variable sf : surface.

  (** [compute_gap], lines 123-135. *)
  Definition compute_gap (disp : arr) (offset : R) : res arr :=
    bind (head_slice (sb_topo sb) disp) (fun u =>
    binop Rminus u (amap (fun z => z + offset) (heights sf))).

  (** [evaluate], lines 459-506, and [ElasticSubstrate.compute],
      Substrates.py 134-147. *)
  Definition evaluate_sys (disp : arr) (offset : R) (pot forces : bool)
    : M (option R * option arr) :=
    mbind (lift (compute_gap disp offset)) (fun g =>
    mbind (upd (set_gap g)) (fun _ =>
    mbind (lift (sb_eval sb disp pot forces)) (fun ef =>
    mbind (upd (set_sub (fst ef) (snd ef))) (fun _ =>
    let e := if pot then fst ef else None in
    let f := if forces then snd ef else None in
    mbind (upd (set_ef e f)) (fun _ => mret (e, f)))))).

  (** What an objective returns: the energy, and the flattened gradient if
      asked for.  [-self.force.ravel()] of None is an AttributeError. *)
  Definition value : Type := option R * option arr.
  Definition eg (gradient : bool) (ef : option R * option arr) : res value :=
    if gradient then
      match snd ef with
      | Some f => Ret (fst ef, Some (amap Ropp (ravel f)))
      | None => Exc AttributeErr
      end
    else Ret (fst ef, None).

  (** [objective], lines 508-549. *)
  Definition objective (offset : R) (gradient : bool) (disp : arr) : M value :=
    mbind (lift (reshape disp (sb_sub sb))) (fun u =>
    mbind (evaluate_sys u offset true gradient) (fun ef => lift (eg gradient ef))).

  (** [primal_objective], lines 613-660. *)
  Definition primal_objective (offset : R) (gradient : bool) (gap : arr) : M value :=
    mbind (lift (reshape gap (sb_sub sb))) (fun g =>
    mbind (lift (binop Rplus g (heights sf))) (fun gh =>
    mbind (lift (reshape (amap (fun z => z + offset) gh) (sb_sub sb))) (fun u =>
    mbind (evaluate_sys u offset true gradient) (fun ef => lift (eg gradient ef))))).

  (** [primal_hessian_product], lines 662-686. *)
  Definition primal_hessian_product (gap : arr) : res arr :=
    bind (reshape gap (sb_sub sb)) (fun g =>
    bind (sb_force sb g) (fun f => reshape (amap Ropp f) (a_shape gap))).

  (** [evaluate_dual], lines 759-830. *)
  Definition evaluate_dual (force : arr) (offset : R) : M (R * arr) :=
    mbind (lift (sb_disp sb (amap Ropp force))) (fun u =>
    mbind (lift (bind (binop Rminus u (heights sf)) (fun d =>
                 Ret (amap (fun z => z - offset) d)))) (fun grad =>
    mbind (upd (set_gradient grad)) (fun _ =>
    mbind (lift (bind (binop Rmult force u) (fun fu =>
                 bind (binop Rmult force (amap (fun z => z + offset) (heights sf))) (fun fh =>
                 Ret (1 / 2 * asum fu - asum fh))))) (fun e =>
    mbind (upd (set_dual e grad (amap Ropp force) u)) (fun _ => mret (e, grad)))))).

  (** [dual_objective], lines 832-882. *)
  Definition dual_objective (offset : R) (gradient : bool) (pressure : arr) : M value :=
    if gradient then
      mbind (lift (reshape pressure (sb_topo sb))) (fun p =>
      mbind (evaluate_dual p offset) (fun eg => mret (Some (fst eg), Some (ravel (snd eg)))))
    else lift (Exc NotImplementedErr).

  (** [dual_hessian_product], lines 884-904. *)
  Definition dual_hessian_product (pressure : arr) : res arr :=
    bind (reshape pressure (sb_topo sb)) (fun p =>
    bind (sb_disp sb (amap Ropp p)) (fun u => reshape u (a_shape pressure))).

  (** ** Minimisation *)

  (** Result objects of the solvers. *)
  Record oresult := mkOres {
    o_success : bool; o_x : arr; o_jac : arr; o_offset : R; o_plastic : zone }.

  (** A program using objective and Hessian product. *)
  Inductive program :=
  | Finish (r : res oresult)
  | Ask (x : arr) (k : value -> program)
  | AskHessian (x : arr) (k : arr -> program).
  Fixpoint exec (obj : arr -> M value) (hes : arr -> res arr) (p : program) : M oresult :=
    match p with
    | Finish r => lift r
    | Ask x k => mbind (obj x) (fun v => exec obj hes (k v))
    | AskHessian x k => mbind (lift (hes x)) (fun h => exec obj hes (k h))
    end.

  Definition positive_zone (a : arr) : list nat * zone :=
    (a_shape a, fun x y => if Rlt_dec 0 (a_val a x y) then true else false).
  Definition zero_zone (a : arr) : list nat * zone :=
    (a_shape a, fun x y => if Req_EM_T (a_val a x y) 0 then true else false).

  (** [NonSmoothContactSystem.minimize_proxy], lines 572-611.  [solver] stands
      for the call [solver(substrate, surface, **kwargs)], which does not
      touch the system. *)
  Definition minimize_proxy (solver : res oresult) : M oresult :=
    mbind (upd reset) (fun _ =>
    mbind (lift solver) (fun r =>
    if o_success r then
      mbind (upd (fun y => mkState (y_gap y) (Some (o_x r)) (y_energy y) (Some (o_jac r))
        (Some (positive_zone (o_jac r))) (Some (o_offset r)) (y_gradient y)
        (y_senergy y) (Some (o_jac r)) (y_sdisp y))) (fun _ =>
      mbind (lift (sb_check sb (o_jac r))) (fun _ => mret r))
    else mret r)).

  (** [primal_minimize_proxy], lines 688-757.  [known] says whether the
      solver string is one of the three names; [init_gap] None fails at
      [self.init_gap.shape]. *)
  Definition primal_minimize_proxy (offset : R) (init_gap : option arr) (known : bool)
      (opt : arr -> program) : M oresult :=
    if negb known then lift (Exc ValueErr)
    else
      mbind (upd reset) (fun _ =>
      match init_gap with
      | None => lift (Exc AttributeErr)
      | Some g0 =>
          mbind (exec (primal_objective offset true) primal_hessian_product (opt g0)) (fun r =>
          if o_success r then
            mbind (upd (fun y => mkState (Some (o_x r)) None (y_energy y) (Some (o_jac r))
              (Some (zero_zone (o_x r))) (Some offset) (y_gradient y)
              (y_senergy y) (Some (o_jac r)) (y_sdisp y))) (fun _ =>
            mbind (lift (bind (reshape (heights sf) (a_shape (o_x r))) (fun h =>
                         binop Rplus (amap (fun z => z + offset) (o_x r)) h))) (fun u =>
            mbind (upd (fun y => mkState (y_gap y) (Some u) (y_energy y) (y_force y) (y_zone y)
              (y_offset y) (y_gradient y) (y_senergy y) (y_sforce y) (y_sdisp y))) (fun _ =>
            mret r)))
          else mret r)
      end).

  (** [dual_minimize_proxy], lines 906-980. *)
  Definition dual_minimize_proxy (offset : R) (init_force : option arr) (known : bool)
      (opt : arr -> program) : M oresult :=
    if negb known then lift (Exc ValueErr)
    else
      mbind (upd reset) (fun _ =>
      match init_force with
      | None => lift (Exc AttributeErr)
      | Some f0 =>
          if negb (shape_eqb (a_shape f0) (sb_topo sb)) then lift (Exc IncompatibleResolutionErr)
          else
          mbind (exec (dual_objective offset true) dual_hessian_product (opt f0)) (fun r =>
          if o_success r then
            mbind (upd (fun y => mkState (Some (o_jac r)) None (y_energy y) (Some (o_x r))
              (Some (positive_zone (o_x r))) (Some offset) (y_gradient y)
              (y_senergy y) (Some (o_x r)) (y_sdisp y))) (fun _ =>
            mbind (lift (bind (reshape (heights sf) (a_shape (o_jac r))) (fun h =>
                         binop Rplus (amap (fun z => z + offset) (o_jac r)) h))) (fun u =>
            mbind (upd (fun y => mkState (y_gap y) (Some u) (y_energy y) (y_force y) (y_zone y)
              (y_offset y) (y_gradient y) (y_senergy y) (y_sforce y) (y_sdisp y))) (fun _ =>
            mret r)))
          else mret r)
      end).

  (** ** Observables, lines 141-160 and 421-430.  The sums are over existing
      arrays; before a successful minimisation the attributes are None. *)
  Definition compute_normal_force (y : state) : option R :=
    match y_sforce y with Some f => Some (asum f) | None => None end.
  Definition compute_nb_contact_pts (y : state) : option R :=
    match y_zone y with
    | Some (g, z) => Some (asum (mkArr g (fun x y => if z x y then 1 else 0)))
    | None => None
    end.
  Definition compute_contact_area (y : state) : option R :=
    match compute_nb_contact_pts y with Some n => Some (n * sb_area sb) | None => None end.
  Definition compute_relative_contact_area (y : state) : option R :=
    match compute_contact_area y with
    | Some a => Some (a / fold_right Rmult 1 (sb_sizes sb))
    | None => None
    end.

  (** ** Shape conversion, lines 162-196 *)
  Definition shape_minimisation_input (a : arr) : res arr :=
    if Nat.eqb (size (sb_sub sb)) (size (a_shape a)) then Ret (ravel a)
    else Exc IncompatibleResolutionErr.
  Definition shape_minimisation_output (a : arr) : res arr :=
    if Nat.eqb (size (sb_sub sb)) (size (a_shape a)) then reshape a (sb_sub sb)
    else Exc IncompatibleResolutionErr.

  (** [_lbounds_from_heights], lines 214-222: None is a masked entry, i.e.
      -inf in [_reshape_bounds]. *)
  Definition lbounds_from_heights (offset : R) : nat -> nat -> option R := fun x y =>
    if andb (Nat.ltb x (nth 0 (sb_topo sb) 1%nat)) (Nat.ltb y (nth 1 (sb_topo sb) 1%nat))
    then Some (a_val (heights sf) x y + offset) else None.

  (** [SystemBase.minimize_proxy] with [_update_state], lines 224-338, for
      default bounds, with gradient, one process.  The optimiser's final
      [result.x], [result.jac] have size [nb_subdomain_grid_pts]. *)
  Definition base_minimize_proxy (offset : R) (init : option arr) (opt : arr -> program)
    : M oresult :=
    let d0 := match init with Some d => d | None => mkArr (sb_sub sb) (fun _ _ => 0) end in
    mbind (lift (shape_minimisation_input d0)) (fun x0 =>
    mbind (exec (objective offset true) primal_hessian_product (opt x0)) (fun r =>
    mbind (upd (fun y => mkState (y_gap y) (y_disp y) (y_energy y) (y_force y) (y_zone y)
       (Some offset) (y_gradient y) (y_senergy y) (y_sforce y) (y_sdisp y))) (fun _ =>
    mbind (lift (shape_minimisation_output (o_x r))) (fun u =>
    mbind (upd (fun y => mkState (y_gap y) (Some u) (y_energy y) (y_force y) (y_zone y)
       (y_offset y) (y_gradient y) (y_senergy y) (y_sforce y) (y_sdisp y))) (fun _ =>
    mbind (evaluate_sys u offset true true) (fun _ =>
    mbind (lift (shape_minimisation_output (o_jac r))) (fun j =>
    mret (mkOres (o_success r) u j (o_offset r) (o_plastic r))))))))).
End System.

(** ** [PlasticNonSmoothContactSystem.minimize_proxy],
    PlasticSystemSpecialisations.py 58-69.  [solver] receives the hardness in
    force units. *)
Definition plastic_minimize_proxy (sb : substrate) (sf : surface)
    (solver : R -> res oresult) (y : state) : state * surface * res oresult :=
  match minimize_proxy sb (solver (sf_hardness sf * sf_area sf)) y with
  | (y', Exc e) => (y', sf, Exc e)
  | (y', Ret r) =>
      if o_success r then
        match compute_gap sb sf (o_x r) (o_offset r) with
        | Exc e => (y', sf, Exc e)
        | Ret g =>
            (y', mkSurface (sf_grid sf) (sf_base sf)
                   (fun i j => sf_plastic sf i j + (if o_plastic r i j then a_val g i j else 0))
                   (sf_hardness sf) (sf_area sf), Ret r)
        end
      else (y', sf, Ret r)
  end.

(** A history of load steps. *)
Fixpoint plastic_steps (sb : substrate) (sf : surface) (solvers : list (R -> res oresult))
    (y : state) : state * surface :=
  match solvers with
  | [] => (y, sf)
  | s :: rest => let '(y', sf', _) := plastic_minimize_proxy sb sf s y in
                 plastic_steps sb sf' rest y'
  end.

(** ** [evaluate_dual] in a decomposed run: the energy is [np.sum] over the
    local arrays (lines 797-798), here the points [loc .. loc + n - 1] of the
    global fields. *)
Definition dual_energy_on (d : dec) (p u h : field) (offset : R) : R :=
  let l (f : field) : field := fun i j => f (fst (d_loc d) + i)%nat (snd (d_loc d) + j)%nat in
  1 / 2 * Rsum2 (fst (d_n d)) (snd (d_n d)) (fun i j => l p i j * l u i j)
  - Rsum2 (fst (d_n d)) (snd (d_n d)) (fun i j => l p i j * (l h i j + offset)).
