(** * Model of [PeriodicFFTElasticHalfSpace]

    /repo/ContactMechanics/FFTElasticHalfSpace.py, lines 43-886.

    Simplifications that apply to the whole file:
    - floating point numbers are reals; the overflow handling of the
      thickness correction ([corr[isnan(corr)] = 1], line 540) is therefore
      dead code and left out;
    - a one-dimensional array is a two-dimensional one with a single column;
    - the FFT engine is [fft2]/[irfft2]/[1/(nx*ny)] of FFT_Base.v; of the
      half-complex array only rows [k <= nx/2] are ever read;
    - buffers ([real_buffer], [fourier_buffer]) are scratch space that is
      overwritten at the start of every call, hence not part of the state;
    - numpy's [1/0 = inf] is not represented: theorems assume the stiffness
      is non-zero where the code divides by it. *)

From Coq Require Import Reals ZArith Lia Lra List Arith Bool.
From Coquelicot Require Import Complex.
From Verif Require Import Py FFT_Base.
Import ListNotations.
Local Open Scope R_scope.

(** Decidable equality test [x == 0.0] on reals. *)
Definition Req_bool (x y : R) : bool := if Req_EM_T x y then true else false.

(** Arguments of [__init__], lines 169-181.  A scalar [nb_grid_pts] or
    [physical_sizes] is wrapped into a 1-tuple by lines 233-236, so lists
    cover both.  [a_engine] is [Some shape] if an external FFT engine with
    that grid is passed. *)
Record args := mkArgs {
  a_grid : list nat;
  a_young : R;
  a_sizes : list R;
  a_q0 : option R;
  a_thick : option R;
  a_poisson : R;
  a_engine : option (list nat) }.

(** Attributes set by [__init__], lines 237-302. *)
Record hs := mkHs {
  h_grid : list nat;
  h_sizes : list R;
  h_steps : list R;
  h_young : R;
  h_poisson : R;
  h_Estar : R;            (* contact_modulus *)
  h_q0 : option R;
  h_thick : option R }.

(** Lines 252-255: [physical_sizes[min(i, len(physical_sizes) - 1)]]. *)
Definition extend_sizes (dim : nat) (sizes : list R) : res (list R) :=
  match sizes, dim with
  | [], S _ => Exc IndexError
  | _, _ => Ret (map (fun i => nth (Nat.min i (length sizes - 1)) sizes 0) (seq 0 dim))
  end.

(** Lines 257-262 (274: re-raised with a longer message). *)
Definition compute_steps (sizes : list R) (grid : list nat) : res (list R) :=
  if existsb (fun n => Nat.eqb n 0) grid then Exc ZeroDivisionError
  else Ret (map (fun p => fst p / INR (snd p)) (combine sizes grid)).

(** [__init__] up to the Green's function, lines 232-302.  [dom] is
    [nb_domain_grid_pts], which the subclasses override. *)
Definition new_on (dom : list nat) (a : args) : res hs :=
  let dim := length (a_grid a) in
  if negb (orb (Nat.eqb dim 1) (Nat.eqb dim 2)) then Exc SubstrateError
  else if match a_q0 a, a_thick a with Some _, Some _ => true | _, _ => false end
  then Exc SubstrateError
  else
    bind (extend_sizes dim (a_sizes a)) (fun sizes =>
    bind (compute_steps sizes (a_grid a)) (fun steps =>
    if Req_bool (1 - a_poisson a ^ 2) 0 then Exc ZeroDivisionError   (* line 273 *)
    else if match a_engine a with
            | Some g => negb (shape_eqb g dom)
            | None => false
            end then Exc SubstrateError
    else Ret {| h_grid := a_grid a; h_sizes := sizes; h_steps := steps;
                h_young := a_young a; h_poisson := a_poisson a;
                h_Estar := a_young a / (1 - a_poisson a ^ 2);
                h_q0 := a_q0 a; h_thick := a_thick a |})).

Definition new (a : args) : res hs := new_on (a_grid a) a.

Definition dim (h : hs) : nat := length (h_grid h).
Definition nx (h : hs) : nat := nth 0 (h_grid h) 1%nat.
Definition ny (h : hs) : nat := nth 1 (h_grid h) 1%nat.   (* 1 in one dimension *)
Definition sx (h : hs) : R := nth 0 (h_sizes h) 1.
Definition sy (h : hs) : R := nth 1 (h_sizes h) 1.

(** [area_per_pt], lines 320-322. *)
Definition area_per_pt (h : hs) : R :=
  fold_right Rmult 1 (h_sizes h) / fold_right Rmult 1 (map INR (h_grid h)).

(** Lines 474-479 and 500-511: [np.where(q <= n // 2, q / s, (n - q) / s)]. *)
Definition qcoord (n : nat) (s : R) (k : nat) : R :=
  if Nat.leb k (n / 2) then INR k / s else (INR n - INR k) / s.

(** Line 512. *)
Definition qabs (h : hs) (k l : nat) : R :=
  sqrt (qcoord (nx h) (sx h) k * qcoord (nx h) (sx h) k
        + qcoord (ny h) (sy h) l * qcoord (ny h) (sy h) l).

(** Lines 524-536: thickness correction factor. *)
Definition thick_corr (nu q : R) : R :=
  let fac := 3 - 4 * nu in
  let off := 4 * nu * (2 * nu - 3) + 5 in
  (fac * cosh (2 * q) + 2 * q ^ 2 + off) / (fac * sinh (2 * q) - 2 * q).

(** Lines 543-548. *)
Definition thick_q0 (young t nu : R) : R :=
  young / t * (1 - nu) / ((1 - 2 * nu) * (1 + nu)).

Definition at_origin (loc : nat * nat) : bool :=
  andb (Nat.eqb (fst loc) 0) (Nat.eqb (snd loc) 0).

Definition is_00 (i j : nat) : bool := andb (Nat.eqb i 0) (Nat.eqb j 0).

(** [_compute_greens_function], dim == 2, lines 494-560.  [loc] is
    [fourier_locations], [n] is [nb_fourier_grid_pts] of this process; the
    result is indexed by local indices. *)
Definition greens_2d (h : hs) (loc n : nat * nat) : res (nat -> nat -> R) :=
  if Nat.eqb (fst n * snd n) 0 then Ret (fun _ _ => 0)            (* 495-498 *)
  else
    let s i j := PI * h_Estar h * qabs h (fst loc + i) (snd loc + j) in
    let finish (s' : nat -> nat -> R) :=                            (* 557-560 *)
      Ret (fun i j =>
        if andb (andb (at_origin loc) (is_00 i j))
                (match h_q0 h with Some q0 => Req_bool q0 0 | None => false end)
        then 0 else 1 / s' i j) in
    let set00 v i j := if is_00 i j then v else s i j in
    match h_thick h with
    | Some t =>                                                     (* 524-548 *)
        finish (fun i j =>
          if andb (at_origin loc) (is_00 i j)
          then thick_q0 (h_young h) t (h_poisson h)
          else s i j * thick_corr (h_poisson h)
                 (qabs h (fst loc + i) (snd loc + j) * (2 * PI * t)))
    | None =>
        if at_origin loc then                                       (* 549-556 *)
          match h_q0 h with
          | None => if orb (Nat.ltb (fst n) 2) (Nat.ltb (snd n) 2)
                    then Exc IndexError
                    else finish (set00 ((s 1%nat 0%nat + s 0%nat 1%nat) / 2))
          | Some q0 => finish (set00 (if Req_bool q0 0 then 1 else q0))
          end
        else finish s
    end.

(** [_compute_greens_function], dim == 1, lines 470-492.  Note that element 0
    of the LOCAL array is overwritten whatever [loc] is, that [thickness] is
    not looked at, and that line 492 indexes a 1D array with two indices. *)
Definition greens_1d (h : hs) (loc n : nat) : res (nat -> nat -> R) :=
  let s i := PI * h_Estar h * qcoord (nx h) (sx h) (loc + i) in
  bind (match h_q0 h with
        | None => if Nat.ltb n 2 then Exc IndexError else Ret (s 1%nat)
        | Some q0 => if Nat.ltb n 1 then Exc IndexError
                     else Ret (if Req_bool q0 0 then 1 else q0)
        end) (fun v =>
  if andb (Nat.eqb loc 0)
          (match h_q0 h with Some q0 => Req_bool q0 0 | None => false end)
  then Exc IndexError
  else Ret (fun i _ => 1 / (if Nat.eqb i 0 then v else s i))).

Definition compute_greens_function (h : hs) (loc n : nat * nat)
  : res (nat -> nat -> R) :=
  if Nat.eqb (dim h) 1 then greens_1d h (fst loc) (fst n) else greens_2d h loc n.

(** [_compute_surface_stiffness], lines 563-571. *)
Definition compute_surface_stiffness (gf : nat -> nat -> R) : nat -> nat -> R :=
  fun i j => if Req_bool (gf i j) 0 then 0 else 1 / gf i j.

(** The object after [__init__] on a process whose Fourier subdomain starts
    at [loc] and has [n] points. *)
Record sub := mkSub {
  s_hs : hs;
  s_gf : nat -> nat -> R;
  s_ss : nat -> nat -> R }.

Definition construct_on (a : args) (loc n : nat * nat) : res sub :=
  bind (new a) (fun h =>
  bind (compute_greens_function h loc n) (fun gf =>
  Ret {| s_hs := h; s_gf := gf; s_ss := compute_surface_stiffness gf |})).

(** Serial run: the half-complex array has nx/2+1 rows and ny columns. *)
Definition fourier_pts (grid : list nat) : nat * nat :=
  ((nth 0 grid 1 / 2 + 1)%nat, nth 1 grid 1%nat).
Definition construct (a : args) : res sub :=
  construct_on a (0, 0)%nat (fourier_pts (a_grid a)).

(** A numpy array: its shape and its values. *)
Record arr := mkArr { a_shape : list nat; a_val : field }.

(** ** numpy: [buffer[...] = u] for a buffer of shape [g]

    Axes of length 1 are repeated, missing first axes as well, superfluous first
    axes of length 1 are dropped.  Arrays with more than two axes are not
    distinguished from those that do not fit. *)
Definition fits (n N : nat) : bool := orb (Nat.eqb n N) (Nat.eqb n 1).
Definition repeated (n i : nat) : nat := if Nat.eqb n 1 then 0%nat else i.
Definition copy_into (g : list nat) (u : arr) : res (nat -> nat -> R) :=
  match g, a_shape u with
  | _, [] => Ret (fun _ _ => a_val u 0%nat 0%nat)
  | [N], [n] => if fits n N then Ret (fun x y => a_val u (repeated n x) y) else Exc ValueErr
  | [N], [m; n] => if andb (Nat.eqb m 1) (fits n N) then Ret (fun x y => a_val u 0%nat (repeated n x)) else Exc ValueErr
  | [_; N], [n] => if fits n N then Ret (fun x y => a_val u (repeated n y) 0%nat) else Exc ValueErr
  | [M; N], [m; n] => if andb (fits m M) (fits n N) then Ret (fun x y => a_val u (repeated m x) (repeated n y)) else Exc ValueErr
  | _, _ => Exc ValueErr
  end.


Section Evaluate.
  Variable s : sub.
  Let h := s_hs s.
  Let Nx := nx h.
  Let Ny := ny h.

  (** [fftengine.normalisation] *)
  Definition normalisation : R := 1 / (INR Nx * INR Ny).

  (** [evaluate_disp], lines 573-589. *)
  Definition evaluate_disp (f : arr) : res arr :=
    if negb (shape_eqb (a_shape f) (h_grid h)) then Exc SubstrateError
    else
      let rb := fun x y => - a_val f x y in
      let fb := fft2 Nx Ny rb in
      let fb' := fun k l => (fb k l * RtoC (s_gf s k l))%C in
      let rb' := irfft2 Nx Ny fb' in
      Ret (mkArr (a_shape f)
             (fun x y => rb' x y / area_per_pt h * normalisation)).

  (** [evaluate_force], lines 591-611. *)
  Definition evaluate_force (u : arr) : res arr :=
    if negb (shape_eqb (a_shape u) (h_grid h)) then Exc SubstrateError
    else
      let fb := fft2 Nx Ny (a_val u) in
      let fb' := fun k l => (fb k l * RtoC (s_ss s k l))%C in
      let rb' := irfft2 Nx Ny fb' in
      Ret (mkArr (a_shape u)
             (fun x y => - rb' x y * area_per_pt h * normalisation)).

  (** [evaluate_k_disp], lines 613-636. *)
  Definition evaluate_k_disp (f : arr) : res spectrum :=
    if negb (shape_eqb (a_shape f) (h_grid h)) then Exc SubstrateError
    else
      let fb := fft2 Nx Ny (fun x y => - a_val f x y) in
      Ret (fun k l => (RtoC (s_gf s k l) * fb k l / RtoC (area_per_pt h))%C).

  (** [evaluate_k_force_k], lines 656-674. *)
  Definition evaluate_k_force_k (uk : spectrum) : spectrum :=
    fun k l => (- RtoC (s_ss s k l) * uk k l * RtoC (area_per_pt h))%C.

  (** [evaluate_k_force], lines 638-654. *)
  Definition evaluate_k_force (u : arr) : res spectrum :=
    if negb (shape_eqb (a_shape u) (h_grid h)) then Exc SubstrateError
    else Ret (evaluate_k_force_k (fft2 Nx Ny (a_val u))).

  (** [evaluate_elastic_energy], lines 676-684. *)
  Definition evaluate_elastic_energy (f u : field) : R :=
    0.5 * Rsum2 Nx Ny (fun x y => u x y * - f x y).

  (** Local contribution of one process to
      [evaluate_scalar_product_k_space], lines 746-803.  [ka], [kb] are
      indexed by local indices.  An empty slab contributes an empty array,
      i.e. nothing, to [pnp.sum]. *)
  Definition local_scalar_product (loc n : nat * nat) (ka kb : spectrum) : R :=
    let loc0 := fst loc in
    let n0 := fst n in
    if Nat.eqb (fst n * snd n) 0 then 0
    else
      let fact0 := if Nat.eqb loc0 0 then 1
                   else if Nat.ltb 1 n0 then 2 else 0 in
      let factend := if andb (Nat.eqb loc0 0) (Nat.eqb n0 1) then 0
                     else if Nat.eqb (Nx mod 2) 1 then 2
                     else if Nat.eqb (loc0 + n0 - 1) (Nx / 2) then 1
                     else 2 in
      let factmiddle := if Nat.ltb 2 n0 then 2 else 0 in
      let rowdot i := Re (Csum (snd n) (fun j => (Cconj (ka i j) * kb i j)%C)) in
      (factmiddle * Rsum (n0 - 2) (fun i => rowdot (1 + i)%nat)
       + fact0 * rowdot 0%nat + factend * rowdot (n0 - 1)%nat)
      / (INR Nx * INR Ny).

  (** The value returned on every process: [pnp.sum] adds the local
      contributions of all processes (line 805).  [ranks] lists their
      Fourier subdomains; each holds its part of the global arrays. *)
  Definition scalar_product_k (ranks : list ((nat * nat) * (nat * nat)))
      (A B : spectrum) : R :=
    fold_right Rplus 0
      (map (fun r => local_scalar_product (fst r) (snd r)
              (fun i j => A (fst (fst r) + i)%nat (snd (fst r) + j)%nat)
              (fun i j => B (fst (fst r) + i)%nat (snd (fst r) + j)%nat)) ranks).

  Definition serial_ranks : list ((nat * nat) * (nat * nat)) :=
    [((0, 0), (Nx / 2 + 1, Ny))%nat].

  (** [evaluate_elastic_energy_k_space], lines 807-839. *)
  Definition evaluate_elastic_energy_k_space
      (ranks : list ((nat * nat) * (nat * nat))) (fk uk : spectrum) : R :=
    -0.5 * scalar_product_k ranks uk fk.

  (** [evaluate], lines 841-862; line 857 copies [disp] into the buffer. *)
  Definition evaluate (u : arr) (pot forces : bool)
    : res (option R * option arr) :=
    if forces then
      bind (evaluate_force u) (fun f =>
      Ret ((if pot then Some (evaluate_elastic_energy (a_val f) (a_val u)) else None),
           Some f))
    else if pot then
      bind (copy_into (h_grid h) u) (fun v =>
      let uk := fft2 Nx Ny v in
      Ret (Some (evaluate_elastic_energy_k_space serial_ranks
                   (evaluate_k_force_k uk) uk), None))
    else Ret (None, None).

  (** [evaluate_k], lines 864-885. *)
  Definition evaluate_k (uk : spectrum) (pot forces : bool)
    : option R * option spectrum :=
    let fk := evaluate_k_force_k uk in
    let e := evaluate_elastic_energy_k_space serial_ranks fk uk in
    if forces then ((if pot then Some e else None), Some fk)
    else if pot then (Some e, Some fk)
    else (None, None).
End Evaluate.
