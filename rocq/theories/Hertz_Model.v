(** * The Hertz solutions of ReferenceSolutions/Hertz.py

    All numbers are real numbers.  Array functions work element by element
    (numpy broadcasting), so they are modelled by functions of one element
    and [map]; masked assignments become conditionals.  Arrays are arrays of
    floats: [np.zeros_like] of an integer array, which would round the
    results, is left out.  Not-a-number results (square root or fractional
    power of a negative number) are left out: [sqrt] is 0 there and the
    theorems exclude these arguments. *)

From Coq Require Import Reals List.
Import ListNotations.
Local Open Scope R_scope.

(** [x ** y] for a float [x >= 0] and [y > 0]. *)
Definition fpow (x y : R) : R := if Req_EM_T x 0 then 0 else Rpower x y.

(** [np.arctan2(1, x)]: the angle in (0, pi) whose cotangent is [x]. *)
Definition arctan2_1 (x : R) : R := PI / 2 - atan x.

(** [z * np.arctan(1. / z)]; for [z = 0] numpy computes
    [0 * arctan(inf) = 0], here [1 / 0 = 0] and [0 * arctan 0 = 0]. *)
Definition z_arctan_inv (z : R) : R := z * atan (1 / z).

(** Hertz.py 35-57; the radius [R] of the code is called [Rs]. *)
Definition penetration (N Rs Es : R) : R :=
  fpow (9 * N ^ 2 / (16 * Rs * Es ^ 2)) (1 / 3).

(** Hertz.py 60-81. *)
Definition normal_load (d Rs Es : R) : R := 4 / 3 * Es * sqrt (d ^ 3 * Rs).

(** Hertz.py 84-101. *)
Definition elastic_energy (d Rs Es : R) : R := 8 / 15 * sqrt Rs * Es * fpow d (5 / 2).

(** Hertz.py 104-130; the pair is [(a, p0)]. *)
Definition radius_and_pressure (N Rs Es : R) : R * R :=
  let a := Rs * fpow (3 / 4 * (N / (Es * Rs ^ 2))) (1 / 3) in
  let p0 := 3 * N / (2 * PI * a * a) in
  (a, p0).

(** Hertz.py 133-148 (default values [R=1], [Es=1] are passed by the caller). *)
Definition max_pressure__penetration (delta Rs Es : R) : R :=
  2 * Es / PI * sqrt (delta / Rs).

(** Hertz.py 151-206, one element.  [mask0] 174, [maski] 175, [masko] 176;
    the three masks exclude each other, so the order of the assignments does
    not matter.  [1e-6] is the real number 10^-6. *)
Definition in_mask0 (r : R) : bool := if Rlt_dec (Rabs r) (/ 10 ^ 6) then true else false.
Definition in_maski (r : R) : bool :=
  andb (if Rlt_dec r 1 then true else false) (negb (in_mask0 r)).
Definition surface_stress1 (poisson r : R) : R * R * R :=
  if in_mask0 r then
    (1, - (1 + 2 * poisson) / 2 * 1, - (1 + 2 * poisson) / 2 * 1)
  else if in_maski r then
    let r_a_sq := r ^ 2 in
    (sqrt (1 - r_a_sq),
     (1 - 2 * poisson) / (3 * r_a_sq) * (1 - fpow (1 - r_a_sq) (3 / 2)) - sqrt (1 - r_a_sq),
     - (1 - 2 * poisson) / (3 * r_a_sq) * (1 - fpow (1 - r_a_sq) (3 / 2))
       - 2 * poisson * sqrt (1 - r_a_sq))
  else
    let r_a_sq := r ^ 2 in
    let po := (1 - 2 * poisson) / (3 * r_a_sq) in
    (0, po, - po).
(** The three returned arrays. *)
Definition surface_stress (r : list R) (poisson : R) : list R * list R * list R :=
  (map (fun x => fst (fst (surface_stress1 poisson x))) r,
   map (fun x => snd (fst (surface_stress1 poisson x))) r,
   map (fun x => snd (surface_stress1 poisson x)) r).

(** Hertz.py 209-234, one element: [(srr, szz)]. *)
Definition centerline_stress1 (poisson z : R) : R * R :=
  (- (1 + poisson) * (1 - z_arctan_inv z) + 1 / (2 * (1 + z ^ 2)),
   - 1 / (1 + z ^ 2)).

(** Hertz.py 237-272, one element. *)
Definition surface_displacement1 (r : R) : R :=
  if Rlt_dec r 1 then - PI * (2 - r ^ 2) / 4
  else (- (2 - r ^ 2) * asin (1 / r) - r * sqrt (1 - (1 / r) ^ 2)) / 2.
Definition surface_displacements (r : list R) : list R := map surface_displacement1 r.

(** A stress tensor in cylindrical coordinates, in the order of Hertz.py 356. *)
Record cyl := mkCyl { c_tt : R; c_rr : R; c_zz : R; c_rz : R }.

(** Hertz.py 275-356, one element.  The names of the locals are those of the
    code; [r1], [z1] are [r], [z] after the substitution in 324-325. *)
Definition stress1 (poisson r z : R) : cyl :=
  let p := r ^ 2 + z ^ 2 - 1 in
  let u := p / 2 + sqrt (p ^ 2 / 4 + z ^ 2) in
  let sqrtu := sqrt u in
  let r1 := r / sqrt (1 + u) in
  let z1 := sqrt (1 - r1 ^ 2) in
  let sa := z_arctan_inv sqrtu in
  let o := if Rlt_dec 0 r1 then (1 - z1 ^ 3) / r1 ^ 2 else 3 / 2 * 1 in
  let u_plus_z2 := u + z1 ^ 2 in
  let q := if Rlt_dec 0 u_plus_z2 then z1 ^ 2 / u_plus_z2 else 1 in
  let stt := (1 - 2 * poisson) / 3 * 1 / (1 + u) * o
             + z1 * (2 * poisson + (1 - poisson) * u / (1 + u) - (1 + poisson) * sa) in
  let szz := z1 * q in
  let srr := - ((1 - 2 * poisson) / 3 * 1 / (1 + u) * o
             + z1 * q + z1 * ((1 - poisson) * u / (1 + u) + (1 + poisson) * sa - 2)) in
  let srz := r1 * q * sqrtu / sqrt (1 + u) in
  mkCyl (- stt) (- srr) (- szz) (- srz).

(** A symmetric tensor in the order of Hertz.py 405, 438, 478, 509. *)
Record cart := mkCart { t_xx : R; t_yy : R; t_zz : R; t_yz : R; t_xz : R; t_xy : R }.

(** The locals shared by Hertz.py 382-387 and 464-469. *)
Definition hA (r_sq z : R) : R := r_sq + z ^ 2 - 1.
Definition hS (r_sq z : R) : R := sqrt (hA r_sq z ^ 2 + 4 * z ^ 2).
Definition hM (r_sq z : R) : R := sqrt ((hS r_sq z + hA r_sq z) / 2).
Definition hN (r_sq z : R) : R := sqrt ((hS r_sq z - hA r_sq z) / 2).

(** Hertz.py 381-405, with the locals as arguments. *)
Definition normal_formula (poisson x y z r_sq A S M N phi : R) : cart :=
  let G := M ^ 2 - N ^ 2 + z * M - N in
  let H := 2 * M * N + M + z * N in
  mkCart
    ((1 + poisson) * z * phi
     + 1 / r_sq * ((y ^ 2 - x ^ 2) / r_sq
          * ((1 - poisson) * N * z ^ 2 - (1 - 2 * poisson) / 3 * (N * S + 2 * A * N + 1) - poisson * M * z)
        - N * (x ^ 2 + 2 * poisson * y ^ 2) - M * x ^ 2 * z / S))
    ((1 + poisson) * z * phi
     + 1 / r_sq * ((x ^ 2 - y ^ 2) / r_sq
          * ((1 - poisson) * N * z ^ 2 - (1 - 2 * poisson) / 3 * (N * S + 2 * A * N + 1) - poisson * M * z)
        - N * (y ^ 2 + 2 * poisson * x ^ 2) - M * y ^ 2 * z / S))
    (- N + z * M / S)
    (- z * (y * N / S - y * z * H / (G ^ 2 + H ^ 2)))
    (- z * (x * N / S - x * z * H / (G ^ 2 + H ^ 2)))
    (x * y * (1 - 2 * poisson) / r_sq ^ 2
       * (- N * r_sq + 2 / 3 * N * (S + 2 * A) - z * (z * N + M) + 2 / 3)
     + x * y * z / r_sq ^ 2 * (- M * r_sq / S - z * N + M)).

(** Hertz.py 359-438, one point; 430-436 is the case on the axis. *)
Definition stress_Cartesian1 (poisson x y z : R) : cart :=
  let r_sq := x ^ 2 + y ^ 2 in
  if Rlt_dec 0 r_sq then
    let A := hA r_sq z in let S := hS r_sq z in
    let M := hM r_sq z in let N := hN r_sq z in
    normal_formula poisson x y z r_sq A S M N (arctan2_1 M)
  else
    let sxx := (1 + poisson) * (z * arctan2_1 z - 1) + 1 / (2 * (1 + z ^ 2)) in
    mkCart sxx sxx (- 1 / (1 + z ^ 2)) 0 0 0.

(** Hertz.py 463-478, with the locals as arguments. *)
Definition tangential_formula (poisson x y z r_sq A S M N phi : R) : cart :=
  mkCart
    (- x * (poisson / 4 + 1) * phi
     + x * M / r_sq ^ 2 * ((3 / 2 - 2 * x ^ 2 / r_sq) * (S * poisson - 2 * A * poisson + z ^ 2)
         + x ^ 2 * z ^ 2 / S + 7 * poisson * r_sq / 4 - 2 * poisson * x ^ 2 + r_sq)
     + x * z * N / r_sq ^ 2 * ((3 / 2 - 2 * x ^ 2 / r_sq)
           * (- S / 6 * (1 - 2 * poisson) - A / 3 * (1 - 2 * poisson) - 1 / 2 * (z ^ 2 + 3))
         + x ^ 2 / S - poisson * r_sq / 4 - 7 * r_sq / 4)
     + 4 * x * z / (3 * r_sq ^ 2) * (3 / 2 - 2 * x ^ 2 / r_sq) * (1 - 2 * poisson))
    (- 3 * poisson * x * phi / 4
     + x * M / r_sq ^ 2 * ((1 / 2 - 2 * y ^ 2 / r_sq) * (poisson * (S - 2 * A + r_sq) + z ^ 2)
         + y ^ 2 * z ^ 2 / S + 3 / 4 * poisson * r_sq)
     + z * x * N / r_sq ^ 2 * ((1 / 2 - 2 * y ^ 2 / r_sq)
           * (- S / 6 * (1 - 2 * poisson) - A / 3 * (1 - 2 * poisson) - z ^ 2 / 2 - 3 / 2)
         + y ^ 2 / S - 3 / 4 * poisson * r_sq - r_sq / 4)
     + 4 / 3 * z * x / r_sq ^ 2 * (1 / 2 - 2 * y ^ 2 / r_sq) * (1 - 2 * poisson))
    (z * x * N / (2 * r_sq) * (1 - (r_sq + z ^ 2 + 1) / S))
    (x * y * z / (2 * r_sq ^ 2) * (M * (1 / 2 + 1 / S * (z ^ 2 / 2 - 3 / 2 - r_sq / 2))
         + z * N / 2 * (- 3 + 1 / S * (5 + z ^ 2 + r_sq))))
    (3 * z * phi / 2 + z * M / r_sq * (1 + x ^ 2 / r_sq - x ^ 2 / S)
     + N / r_sq * (- 3 / 4 * (S + 2 * A) + z ^ 2 - 3 / 4 - 1 / 4 * r_sq
         + z ^ 2 / 2 * (1 / 2 - 2 * x ^ 2 / r_sq)))
    (y / 2 * (poisson / 2 - 1) * phi
     + y * M / r_sq ^ 2 * (x ^ 2 * z ^ 2 / S
         + poisson * ((S - 2 * A) * (1 / 2 - 2 * x ^ 2 / r_sq) - 2 * x ^ 2 + r_sq / 4)
         + r_sq / 2 + z ^ 2 * (1 / 2 - 2 * x ^ 2 / r_sq))
     + y * z * N / r_sq ^ 2 * ((1 / 2 - 2 * x ^ 2 / r_sq)
           * ((2 * poisson - 1) * (S / 6 + A / 3) - z ^ 2 / 2 - 3 / 2 - r_sq / 2)
         + r_sq * poisson / 4 + x ^ 2 / S - y ^ 2 / 2 - 3 * x ^ 2 / 2)
     + 4 * y * z / (3 * r_sq ^ 2) * (1 / 2 - 2 * x ^ 2 / r_sq) * (1 - 2 * poisson)).

(** Hertz.py 441-509, one point; 503-507 is the case on the axis. *)
Definition stress_for_tangential_loading1 (poisson x y z : R) : cart :=
  let r_sq := x ^ 2 + y ^ 2 in
  if Rlt_dec 0 r_sq then
    let A := hA r_sq z in let S := hS r_sq z in
    let M := hM r_sq z in let N := hN r_sq z in
    tangential_formula poisson x y z r_sq A S M N (arctan2_1 M)
  else
    mkCart 0 0 0 0 (- 1 + 3 / 2 * z * arctan2_1 z - z ^ 2 / (2 * (1 + z ^ 2))) 0.
