(** * Model of [FreeFFTElasticHalfSpace] and [SemiPeriodicFFTElasticHalfSpace]

    /repo/ContactMechanics/FFTElasticHalfSpace.py, lines 888-1615.

    Simplifications: as in HalfSpace_Model.v.  The transform of the real-space
    influence function and all response evaluations are modelled for a serial
    run; the parts that depend on the parallel decomposition
    ([topography_nb_subdomain_grid_pts], the padding of a local force array,
    [domain_boundary_mask], [check_boundaries]) are modelled for arbitrary
    subdomains. *)

From Coq Require Import Reals ZArith Lia Lra List Arith Bool.
From Coquelicot Require Import Complex.
From Verif Require Import Py FFT_Base HalfSpace_Model.
Import ListNotations.
Local Open Scope R_scope.

(** The expression in lines 1061-1136 and (identically) 1446-1513: [a], [b]
    are half the grid spacings, [x], [y] the distance. *)
Definition pixel (young a b x y : R) : R :=
  1 / (PI * young) *
  ((x + a) * ln (((y + b) + sqrt ((y + b) * (y + b) + (x + a) * (x + a)))
                 / ((y - b) + sqrt ((y - b) * (y - b) + (x + a) * (x + a))))
   + (y + b) * ln (((x + a) + sqrt ((y + b) * (y + b) + (x + a) * (x + a)))
                   / ((x - a) + sqrt ((y + b) * (y + b) + (x - a) * (x - a))))
   + (x - a) * ln (((y - b) + sqrt ((y - b) * (y - b) + (x - a) * (x - a)))
                   / ((y + b) + sqrt ((y + b) * (y + b) + (x - a) * (x - a))))
   + (y - b) * ln (((x - a) + sqrt ((y - b) * (y - b) + (x - a) * (x - a)))
                   / ((x + a) + sqrt ((y - b) * (y - b) + (x + a) * (x + a))))).

(** Arguments of the constructors, lines 912-921 and 1295-1306. *)
Record fargs := mkFargs {
  fa_grid : list nat;
  fa_young : R;
  fa_sizes : list R;
  fa_engine : option (list nat);
  fa_check : bool }.

(** What [super().__init__] receives (lines 953-961): no stiffness_q0, no
    thickness, Poisson number 0. *)
Definition base_args (a : fargs) : args :=
  mkArgs (fa_grid a) (fa_young a) (fa_sizes a) None None 0 (fa_engine a).

(** The constructed object.  [f_real] is the influence function on the
    computational grid [f_dom], [f_gf] its transform. *)
Record fsub := mkFsub {
  f_hs : hs;
  f_dom : list nat;
  f_real : field;
  f_gf : spectrum;
  f_ss : spectrum;
  f_check : bool }.

Definition dx (h : hs) : R := nth 0 (h_steps h) 0.
Definition dy (h : hs) : R := nth 1 (h_steps h) 0.

(** Lines 1045-1060: [np.where(x <= n, x, x - n * 2)]. *)
Definition free_coord (n i : nat) : R :=
  if Nat.leb i n then INR i else INR i - INR n * 2.

(** [_compute_surface_stiffness], lines 563-571, for a complex array. *)
Definition compute_surface_stiffness_c (gf : spectrum) : spectrum := fun k l =>
  if Ceq_dec (gf k l) (RtoC 0) then RtoC 0 else (RtoC 1 / gf k l)%C.

(** [FreeFFTElasticHalfSpace.__init__], lines 949-964.  In one dimension
    [_compute_greens_function] returns None, which
    [_compute_surface_stiffness] subscripts. *)
Definition free_construct (a : fargs) : res fsub :=
  let dom := map (fun r => (2 * r)%nat) (fa_grid a) in
  bind (new_on dom (base_args a)) (fun h =>
  if Nat.eqb (dim h) 1 then Exc TypeErr
  else
    let real := fun i j =>
      pixel (h_young h) (dx h * 0.5) (dy h * 0.5)
            (free_coord (nx h) i * dx h) (free_coord (ny h) j * dy h) in
    let gf := fft2 (nth 0 dom 1%nat) (nth 1 dom 1%nat) real in
    Ret (mkFsub h dom real gf (compute_surface_stiffness_c gf) (fa_check a))).

(** ** Semi-periodic *)

(** [periodicity] and [n_images] (a non-negative int; a negative one behaves
    like an empty sum and is left out). *)
Record sargs := mkSargs {
  sa_base : fargs;
  sa_per : bool * bool;
  sa_images : nat }.

(** [numpy.fft.fftfreq(N) * N]: 0, 1, ..., then the negative ones. *)
Definition fftindex (N i : nat) : Z :=
  if Nat.leb i ((N - 1) / 2) then Z.of_nat i else (Z.of_nat i - Z.of_nat N)%Z.
Definition fftfreq (N i : nat) : R := IZR (fftindex N i) / INR N.

(** Lines 1344-1354. *)
Definition semi_points (per : bool) (n : nat) : nat := if per then n else (n * 2 - 1)%nat.

(** Lines 1378-1386. *)
Definition images (per : bool) (n : nat) : list Z :=
  if per then map (fun k => (Z.of_nat k - Z.of_nat n)%Z) (seq 0 (2 * n + 1)) else [0%Z].

Definition Lsum {A} (l : list A) (f : A -> R) : R := fold_left (fun s i => s + f i) l 0.

(** [_compute_greens_function_inner], lines 1421-1514. *)
Definition semi_inner (h : hs) (dom : list nat) (ix iy : Z) : field := fun i j =>
  let Nx := nth 0 dom 1%nat in
  let Ny := nth 1 dom 1%nat in
  let x := fftfreq Nx i * INR Nx / INR (nx h) * sx h + IZR ix * sx h in
  let y := fftfreq Ny j * INR Ny / INR (ny h) * sy h + IZR iy * sy h in
  pixel (h_young h) (dx h * 0.5) (dy h * 0.5) x y.

(** Lines 1368-1398. *)
Definition semi_real (h : hs) (dom : list nat) (per : bool * bool) (n : nat) : field :=
  fun i j => Lsum (images (fst per) n) (fun ix =>
             Lsum (images (snd per) n) (fun iy => semi_inner h dom ix iy i j)).

(** [SemiPeriodicFFTElasticHalfSpace.__init__], lines 1343-1366.  A
    one-dimensional grid fails at [nb_grid_pts[1]] (line 1348/1350), a
    three-dimensional one in the base class. *)
Definition semi_construct (a : sargs) : res fsub :=
  let b := sa_base a in
  match fa_grid b with
  | [] | [_] => Exc IndexError
  | n0 :: n1 :: _ =>
      let dom := [semi_points (fst (sa_per a)) n0; semi_points (snd (sa_per a)) n1] in
      bind (new_on dom (base_args b)) (fun h =>
      let real := semi_real h dom (sa_per a) (sa_images a) in
      let gf := fft2 (nth 0 dom 1%nat) (nth 1 dom 1%nat) real in
      Ret (mkFsub h dom real gf (compute_surface_stiffness_c gf) (fa_check b)))
  end.

(** ** Evaluation *)

Definition domx (s : fsub) : nat := nth 0 (f_dom s) 1%nat.
Definition domy (s : fsub) : nat := nth 1 (f_dom s) 1%nat.

(** [PeriodicFFTElasticHalfSpace.evaluate_disp], lines 573-589, with the
    computational grid and complex weights of the subclasses. *)
Definition base_disp (s : fsub) (f : arr) : res arr :=
  if negb (shape_eqb (a_shape f) (f_dom s)) then Exc SubstrateError
  else
    let fb := fft2 (domx s) (domy s) (fun x y => - a_val f x y) in
    let rb := irfft2 (domx s) (domy s) (fun k l => (fb k l * f_gf s k l)%C) in
    Ret (mkArr (a_shape f) (fun x y => rb x y / area_per_pt (f_hs s)
                                       * (1 / (INR (domx s) * INR (domy s))))).

(** Lines 591-611. *)
Definition base_force (s : fsub) (u : arr) : res arr :=
  if negb (shape_eqb (a_shape u) (f_dom s)) then Exc SubstrateError
  else
    let fb := fft2 (domx s) (domy s) (a_val u) in
    let rb := irfft2 (domx s) (domy s) (fun k l => (fb k l * f_ss s k l)%C) in
    Ret (mkArr (a_shape u) (fun x y => - rb x y * area_per_pt (f_hs s)
                                       * (1 / (INR (domx s) * INR (domy s))))).

(** Lines 991-1004, serial: [max(0, min(n - 0, N))]. *)
Definition topo_shape (s : fsub) : list nat :=
  map (fun p => Nat.min (fst p) (snd p)) (combine (h_grid (f_hs s)) (f_dom s)).

(** [padded[slice(0, n0), slice(0, n1)] = f] into zeros. *)
Definition zero_pad (shape : list nat) (f : field) : field := fun x y =>
  if andb (Nat.ltb x (nth 0 shape 1%nat)) (Nat.ltb y (nth 1 shape 1%nat)) then f x y else 0.

(** [FreeFFTElasticHalfSpace.evaluate_disp], lines 1159-1197 (also used by
    the semi-periodic class, line 1536), serial.  The branch of lines
    1170-1180 is only reached by an array whose shape equals [nb_grid_pts]
    but not [topography_nb_subdomain_grid_pts]; both are the same tuple in a
    serial run, so that only its final [raise] remains. *)
Definition free_disp (s : fsub) (f : arr) (pad : bool) : res arr :=
  if shape_eqb (a_shape f) (f_dom s) then base_disp s f
  else if shape_eqb (a_shape f) (topo_shape s) then
    let padded := mkArr (f_dom s) (zero_pad (topo_shape s) (a_val f)) in
    if pad then base_disp s padded
    else bind (base_disp s padded) (fun u => Ret (mkArr (topo_shape s) (a_val u)))
  else Exc SubstrateError.

(** [SemiPeriodicFFTElasticHalfSpace.evaluate_force], lines 1554-1559.  For
    arrays that do not fit numpy raises ValueError (or IndexError if there is
    no second axis); arrays with more than two axes are not distinguished. *)
Definition semi_force (s : fsub) (u : arr) : res arr :=
  if shape_eqb (a_shape u) (f_dom s) then base_force s u
  else match a_shape u with
       | [n0; n1] =>
           if andb (Nat.leb n0 (domx s)) (Nat.leb n1 (domy s))
           then base_force s (mkArr (f_dom s) (zero_pad [n0; n1] (a_val u)))
           else Exc ValueErr
       | [] | [_] => Exc IndexError
       | _ => Exc ValueErr
       end.

(** ** [spawn_child], lines 966-977 (also inherited by the semi-periodic
    class, where [type(self)(...)] uses the default periodicity and
    [n_images]). *)
Definition child_sizes (h : hs) (grid : list nat) : list R :=
  map (fun p => INR (fst p) / INR (fst (snd p)) * snd (snd p))
      (combine grid (combine (h_grid h) (h_sizes h))).
Definition spawn_child (s : fsub) (grid : list nat) : res fsub :=
  if Nat.ltb (length grid) (dim (f_hs s)) then Exc IndexError
  else free_construct (mkFargs grid (h_young (f_hs s)) (child_sizes (f_hs s) grid) None false).
Definition semi_spawn_child (s : fsub) (grid : list nat) : res fsub :=
  if Nat.ltb (length grid) (dim (f_hs s)) then Exc IndexError
  else semi_construct (mkSargs (mkFargs grid (h_young (f_hs s)) (child_sizes (f_hs s) grid)
                                        None false) (false, true) 10).

(** ** Decomposed domains *)

(** A process owns the points [loc .. loc + n - 1] of the computational grid
    in each direction. *)
Record dec := mkDec { d_loc : nat * nat; d_n : nat * nat }.

(** Lines 991-1004, one direction. *)
Definition topo_sub (n loc sub : nat) : nat := Nat.min (n - loc) sub.

Definition topo_n (n : nat * nat) (d : dec) : nat * nat :=
  (topo_sub (fst n) (fst (d_loc d)) (fst (d_n d)),
   topo_sub (snd n) (snd (d_loc d)) (snd (d_n d))).

(** Lines 1162-1164 on one process: local force array padded to the local
    subdomain. *)
Definition local_pad (n : nat * nat) (d : dec) (f : field) : field := fun i j =>
  if andb (Nat.ltb i (fst (topo_n n d))) (Nat.ltb j (snd (topo_n n d))) then f i j else 0.

(** Which local rows and columns are rim: lines 1237-1254 and 1017-1030.
    [maxix] may be negative, hence Z. *)
Definition max_index (n loc : nat) : Z := (Z.of_nat n - 1 - Z.of_nat loc)%Z.
Definition rim_lines (n loc sub : nat) : list nat :=
  (if Nat.eqb loc 0 then [0%nat] else [])
  ++ (if andb (Z.ltb 0 (max_index n loc)) (Z.ltb (max_index n loc) (Z.of_nat (topo_sub n loc sub)))
      then [Z.to_nat (max_index n loc)] else []).

(** [domain_boundary_mask], lines 1006-1031: True on the selected local rows
    and columns. *)
Definition boundary_mask (n : nat * nat) (d : dec) (i j : nat) : bool :=
  orb (existsb (Nat.eqb j) (rim_lines (snd n) (snd (d_loc d)) (snd (d_n d))))
      (existsb (Nat.eqb i) (rim_lines (fst n) (fst (d_loc d)) (fst (d_n d)))).

(** A (possibly masked) force array: [None] is a masked entry. *)
Definition mfield := nat -> nat -> option R.

Definition Rle_bool (x y : R) : bool := if Rle_dec x y then true else false.

(** [check_vals]: numpy's [all] skips masked entries; if everything is masked
    the second disjunct applies. *)
Definition check_vals (tol : R) (vals : list (option R)) : bool :=
  orb (andb (forallb (fun v => match v with Some r => Rle_bool (Rabs r) tol | None => true end) vals)
            (existsb (fun v => match v with Some _ => true | None => false end) vals
             || Nat.eqb (length vals) 0))
      (forallb (fun v => match v with Some _ => false | None => true end) vals).

(** The local part of [check_boundaries], lines 1222-1254.  The force array
    has [topography_nb_subdomain_grid_pts] entries. *)
Definition check_local (n : nat * nat) (tol : R) (d : dec) (f : mfield) : bool :=
  let tn := topo_n n d in
  andb
   (forallb (fun j => check_vals tol (map (fun i => f i j) (seq 0 (fst tn))))
      (rim_lines (snd n) (snd (d_loc d)) (snd (d_n d))))
   (forallb (fun i => check_vals tol (map (fun j => f i j) (seq 0 (snd tn))))
      (rim_lines (fst n) (fst (d_loc d)) (fst (d_n d)))).

(** [pnp.all] over the processes and the raise, lines 1256-1269.  Process [d]
    holds the part of the global force field [F] that starts at its
    location. *)
Definition check_boundaries (n : nat * nat) (tol : R) (ds : list dec) (F : mfield) : res unit :=
  if forallb (fun d => check_local n tol d
        (fun i j => F (fst (d_loc d) + i)%nat (snd (d_loc d) + j)%nat)) ds
  then Ret tt else Exc FreeBoundaryError.

(** [check], lines 1271-1283; [tol] has its default 0. *)
Definition check (s : fsub) (n : nat * nat) (ds : list dec) (F : mfield) : res unit :=
  if f_check s then check_boundaries n 0 ds F else Ret tt.

(** ** [get_G_real], lines 1561-1591 *)

(** [numpy.argsort]: position [j] of the result is the index of the entry
    with [j] smaller ones (ties by index). *)
Definition arank (m : nat -> Z) (N i : nat) : nat :=
  length (filter (fun k => orb (Z.ltb (m k) (m i)) (andb (Z.eqb (m k) (m i)) (Nat.ltb k i)))
                 (seq 0 N)).
Definition argsort (m : nat -> Z) (N j : nat) : nat :=
  match find (fun i => Nat.eqb (arank m N i) j) (seq 0 N) with Some i => i | None => 0%nat end.

Definition get_G_real (s : fsub) (per : bool * bool) : field := fun i j =>
  let N0 := semi_points (fst per) (nx (f_hs s)) in
  let N1 := semi_points (snd per) (ny (f_hs s)) in
  f_real s (argsort (fftindex N0) N0 i) (argsort (fftindex N1) N1 j).

(** Lines 1593-1615. *)
Definition get_G_real_slices (s : fsub) (per : bool * bool) : (nat -> R) * (nat -> R) :=
  let N0 := semi_points (fst per) (nx (f_hs s)) in
  let N1 := semi_points (snd per) (ny (f_hs s)) in
  (fun i => get_G_real s per i (N1 / 2)%nat, fun j => get_G_real s per (N0 / 2)%nat j).
