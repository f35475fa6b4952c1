(** * Properties of the Hertz solutions (C57, C58, C71, C72) *)

From Coq Require Import Reals Lra Lia Psatz List.
From Coquelicot Require Import Coquelicot.
From Verif Require Import Hertz_Model Calc Hertz_Proofs Hertz_Surface Hertz_Disp Hertz_Interior Hertz_Equilibrium
  Hertz_Balance Hertz_Axis Hertz_Tangential.
From Coq Require Import List.
Import ListNotations.
Local Open Scope R_scope.

(** ** C57: penetration, load, contact radius, peak pressure and energy *)
Theorem C57_inverse : forall Rs Es, 0 < Rs -> 0 < Es ->
  (forall d, 0 <= d -> penetration (normal_load d Rs Es) Rs Es = d)
  /\ (forall N, 0 <= N -> normal_load (penetration N Rs Es) Rs Es = N).
Proof. intros Rs Es HR HE. split; [apply pen_of_load|apply load_of_pen]; assumption. Qed.
Print Assumptions C57_inverse.

Theorem C57_radius : forall N Rs Es a p0, 0 < Rs -> 0 < Es -> 0 < N -> radius_and_pressure N Rs Es = (a, p0) ->
  0 < a /\ a ^ 2 = Rs * penetration N Rs Es /\ a ^ 3 = 3 / 4 * N * Rs / Es
  /\ PI * a ^ 2 * p0 = 3 / 2 * N /\ p0 = max_pressure__penetration (penetration N Rs Es) Rs Es.
Proof.
  intros N Rs Es a p0 HR HE HN E.
  assert (EA : fst (radius_and_pressure N Rs Es) = a) by (rewrite E; reflexivity).
  assert (EP : snd (radius_and_pressure N Rs Es) = p0) by (rewrite E; reflexivity).
  pose proof (radius_gt0 Rs Es HR HE N HN) as P. rewrite EA in P.
  split; [exact P|]. split; [rewrite <- EA; apply radius_sq; lra|].
  split; [rewrite <- EA; apply radius_cube; lra|].
  split; [|rewrite <- EP; apply peak_from_penetration; assumption].
  rewrite <- EP, peak_pressure, EA. field. pose proof PI_RGT_0. lra.
Qed.
Print Assumptions C57_radius.

Theorem C57_energy : forall Rs Es, 0 < Rs -> 0 < Es ->
  (forall d, 0 < d -> is_derive (fun t => elastic_energy t Rs Es) d (normal_load d Rs Es))
  /\ (forall d, 0 <= d -> is_RInt (fun t => normal_load t Rs Es) 0 d (elastic_energy d Rs Es))
  /\ (forall d, 0 <= d -> elastic_energy d Rs Es = 2 / 5 * normal_load d Rs Es * d).
Proof.
  intros Rs Es HR HE. split; [apply energy_derive; assumption|].
  split; [apply energy_RInt; assumption|apply energy_load; assumption].
Qed.
Print Assumptions C57_energy.

Theorem C57_increasing : forall Rs Es d1 d2, 0 < Rs -> 0 < Es -> 0 <= d1 -> d1 < d2 ->
  normal_load d1 Rs Es < normal_load d2 Rs Es.
Proof. intros. apply load_increasing; assumption. Qed.
Print Assumptions C57_increasing.

(** A sphere of radius 1 and modulus 3/4 pressed in by 4. *)
Example C57_nonvacuous : normal_load 4 1 (3 / 4) = 8 /\ penetration 8 1 (3 / 4) = 4
  /\ fst (radius_and_pressure 8 1 (3 / 4)) = 2.
Proof.
  assert (L : normal_load 4 1 (3 / 4) = 8).
  { unfold normal_load. replace (4 ^ 3 * 1) with (8 * 8) by ring. rewrite sqrt_square by lra. field. }
  assert (D : penetration 8 1 (3 / 4) = 4).
  { rewrite <- L. apply (proj1 (C57_inverse 1 (3 / 4) ltac:(lra) ltac:(lra)) 4). lra. }
  split; [exact L|]. split; [exact D|].
  destruct (radius_and_pressure 8 1 (3 / 4)) as [a p0] eqn:E.
  destruct (C57_radius 8 1 (3 / 4) a p0 ltac:(lra) ltac:(lra) ltac:(lra) E) as (P & Q & _).
  rewrite D in Q. cbn [fst]. nra.
Qed.

(** ** C58: the fields at the surface and on the axis *)

(** The surface functions return one value per position. *)
Theorem C58_arrays : forall r nu i x, nth_error r i = Some x ->
  exists p s t, surface_stress1 nu x = (p, s, t)
  /\ nth_error (fst (fst (surface_stress r nu))) i = Some p
  /\ nth_error (snd (fst (surface_stress r nu))) i = Some s
  /\ nth_error (snd (surface_stress r nu)) i = Some t
  /\ nth_error (surface_displacements r) i = Some (surface_displacement1 x).
Proof.
  intros r nu i x H. destruct (surface_stress1 nu x) as [[p s] t] eqn:E. exists p, s, t.
  unfold surface_stress, surface_displacements. cbn [fst snd].
  split; [reflexivity|].
  repeat split; rewrite nth_error_map, H; cbn; rewrite ?E; reflexivity.
Qed.
Print Assumptions C58_arrays.

(** The pressure is positive exactly inside the contact and at most the peak. *)
Theorem C58_pressure : forall nu r p s t, 0 <= r -> surface_stress1 nu r = (p, s, t) ->
  0 <= p <= 1 /\ (0 < p <-> r < 1) /\ s + t = - (1 + 2 * nu) * p.
Proof.
  intros nu r p s t H E.
  pose proof (pressure_range nu r H) as A. pose proof (pressure_support nu r H) as B.
  pose proof (surface_trace nu r H) as T. unfold pz, sr, st in *. rewrite E in *. cbn [fst snd] in *. tauto.
Qed.
Print Assumptions C58_pressure.

(** The pressure integrates to the load, up to what the regularisation at
    10^-6 adds: a relative error of at most 3/2 10^-24. *)
Theorem C58_load : forall nu N Rs Es a p0, 0 < Rs -> 0 < Es -> 0 < N -> radius_and_pressure N Rs Es = (a, p0) ->
  exists total,
    is_RInt (fun r => 2 * PI * r * (p0 * fst (fst (surface_stress1 nu r)))) 0 1 total
    /\ N <= a ^ 2 * total <= N * (1 + 3 / 2 * / 10 ^ 24).
Proof.
  intros nu N Rs Es a p0 HR HE HN E. pose proof (load_integral nu N Rs Es HR HE HN) as L.
  rewrite E in L. exact L.
Qed.
Print Assumptions C58_load.

(** Every field is continuous for r > 10^-6, in particular at the contact
    edge, and the displacement everywhere. *)
Theorem C58_continuous : forall nu r, (/ 10 ^ 6 < r ->
    continuous (fun t => fst (fst (surface_stress1 nu t))) r
    /\ continuous (fun t => snd (fst (surface_stress1 nu t))) r
    /\ continuous (fun t => snd (surface_stress1 nu t)) r)
  /\ continuous surface_displacement1 r.
Proof. intros nu r. split; [apply surface_continuous|apply uz_continuous]. Qed.
Print Assumptions C58_continuous.

(** The step at r = 10^-6 is smaller than the square of the position. *)
Theorem C58_center : forall nu r p s t, 0 <= r -> r < 1 -> surface_stress1 nu r = (p, s, t) ->
  Rabs (p - 1) <= r ^ 2
  /\ Rabs (s + (1 + 2 * nu) / 2) <= (1 + Rabs (1 - 2 * nu) / 6) * r ^ 2
  /\ Rabs (t + (1 + 2 * nu) / 2) <= (2 * Rabs nu + Rabs (1 - 2 * nu) / 6) * r ^ 2.
Proof.
  intros nu r p s t H0 H1 E. pose proof (near_center nu r H0 H1) as A. unfold pz, sr, st in A.
  rewrite E in A. exact A.
Qed.
Print Assumptions C58_center.

(** The paraboloid pushed in by the penetration touches the deformed surface
    inside the contact radius and is separated from it outside. *)
Theorem C58_contact : forall N Rs Es a p0, 0 < Rs -> 0 < Es -> 0 < N -> radius_and_pressure N Rs Es = (a, p0) ->
  let gap x := x ^ 2 / (2 * Rs) - penetration N Rs Es - p0 / Es * a * surface_displacement1 (x / a) in
  (forall x, 0 <= x <= a -> gap x = 0) /\ (forall x, a < x -> 0 < gap x).
Proof.
  intros N Rs Es a p0 HR HE HN E gap.
  pose proof (hertz_contact N Rs Es HN HR HE) as A. pose proof (hertz_separation N Rs Es HN HR HE) as B.
  unfold hertz_gap in A, B. rewrite E in A, B. cbn [fst snd] in A, B. split; assumption.
Qed.
Print Assumptions C58_contact.

(** The Huber field on the surface is [surface_stress]; on the axis both
    interior fields are [centerline_stress]. *)
Theorem C58_surface : forall nu r p s t, surface_stress1 nu r = (p, s, t) ->
  (/ 10 ^ 6 <= r -> stress1 nu r 0 = mkCyl t s (- p) 0)
  /\ (Rabs r < / 10 ^ 6 -> stress1 nu 0 0 = mkCyl t s (- p) 0).
Proof.
  intros nu r p s t E. pose proof (huber_surface nu r) as A. pose proof (huber_surface_center nu r) as B.
  unfold pz, sr, st in A, B. rewrite E in A, B. split; assumption.
Qed.
Print Assumptions C58_surface.

Theorem C58_axis : forall nu z s zz, 0 <= z -> centerline_stress1 nu z = (s, zz) ->
  stress1 nu 0 z = mkCyl s s zz 0 /\ stress_Cartesian1 nu 0 0 z = mkCart s s zz 0 0 0.
Proof.
  intros nu z s zz H E. pose proof (huber_axis nu z H) as A. pose proof (hamilton_axis nu z H) as B.
  rewrite E in A, B. split; assumption.
Qed.
Print Assumptions C58_axis.

(** Rotation of a cylindrical tensor into Cartesian components at the point
    [(r cos t, r sin t)]. *)
Definition to_cartesian (t : R) (c : cyl) : cart :=
  mkCart (cos t ^ 2 * c_rr c + sin t ^ 2 * c_tt c) (sin t ^ 2 * c_rr c + cos t ^ 2 * c_tt c) (c_zz c)
         (sin t * c_rz c) (cos t * c_rz c) (cos t * sin t * (c_rr c - c_tt c)).

Lemma cart_eq : forall a b, t_xx a = t_xx b -> t_yy a = t_yy b -> t_zz a = t_zz b -> t_yz a = t_yz b ->
  t_xz a = t_xz b -> t_xy a = t_xy b -> a = b.
Proof. intros [] []; cbn; intros; subst; reflexivity. Qed.

(** The Huber and the Hamilton field are the same tensor field, except on the
    contact edge, where Hamilton's expression divides by zero. *)
Theorem C58_huber_hamilton : forall nu r t z, 0 <= r -> 0 <= z -> (r <> 1 \/ z <> 0) ->
  stress_Cartesian1 nu (r * cos t) (r * sin t) z = to_cartesian t (stress1 nu r z).
Proof.
  intros nu r t z Hr Hz Hs. pose proof (sin2_cos2 t) as SC. unfold Rsqr in SC.
  destruct Hr as [Hr|Hr].
  - assert (Q : (r * cos t) ^ 2 + (r * sin t) ^ 2 = r ^ 2).
    { replace ((r * cos t) ^ 2 + (r * sin t) ^ 2) with (r ^ 2 * (sin t * sin t + cos t * cos t)) by ring.
      rewrite SC. ring. }
    assert (P : 0 < r ^ 2) by (apply pow_lt; exact Hr).
    assert (SQ : sqrt (r ^ 2) = r) by (apply sqrt_eq; [lra|ring]).
    pose proof (huber_hamilton nu (r * cos t) (r * sin t) z) as RO. rewrite Q in RO.
    assert (Hs' : r ^ 2 <> 1 \/ z <> 0).
    { destruct Hs as [A|A]; [left|right; exact A]. intros B. apply A. nra. }
    specialize (RO P Hz Hs'). rewrite SQ in RO. unfold rotates in RO. destruct RO as (R1 & R2 & R3 & R4 & R5 & R6).
    apply cart_eq; cbn [to_cartesian t_xx t_yy t_zz t_yz t_xz t_xy]; [| | exact R4| | | ].
    + apply (Rmult_eq_reg_l (r ^ 2)); [|lra]. rewrite R1. ring.
    + apply (Rmult_eq_reg_l (r ^ 2)); [|lra]. rewrite R2. ring.
    + apply (Rmult_eq_reg_l r); [|lra]. rewrite R6. ring.
    + apply (Rmult_eq_reg_l r); [|lra]. rewrite R5. ring.
    + apply (Rmult_eq_reg_l (r ^ 2)); [|lra]. rewrite R3. ring.
  - subst r. rewrite !Rmult_0_l. destruct (centerline_stress1 nu z) as [s zz] eqn:E.
    destruct (C58_axis nu z s zz Hz E) as [-> ->]. unfold to_cartesian. cbn [c_tt c_rr c_zz c_rz].
    f_equal; try ring.
    + replace (cos t ^ 2 * s + sin t ^ 2 * s) with ((sin t * sin t + cos t * cos t) * s) by ring. rewrite SC. ring.
    + replace (sin t ^ 2 * s + cos t ^ 2 * s) with ((sin t * sin t + cos t * cos t) * s) by ring. rewrite SC. ring.
Qed.
Print Assumptions C58_huber_hamilton.

(** The branch on the axis is the limit of the formula off the axis. *)
Theorem C58_axis_limit : forall nu z, 0 <= z -> forall eps, 0 < eps ->
  exists delta, 0 < delta /\ forall x y, sqrt (x ^ 2 + y ^ 2) < delta ->
    let s := stress_Cartesian1 nu x y z in let s0 := stress_Cartesian1 nu 0 0 z in
    Rabs (t_xx s - t_xx s0) < eps /\ Rabs (t_yy s - t_yy s0) < eps /\ Rabs (t_zz s - t_zz s0) < eps
    /\ Rabs (t_yz s - t_yz s0) < eps /\ Rabs (t_xz s - t_xz s0) < eps /\ Rabs (t_xy s - t_xy s0) < eps.
Proof. exact hamilton_axis_limit. Qed.
Print Assumptions C58_axis_limit.

(** At r = 3/5 with Poisson number 0 the pressure is 4/5. *)
Example C58_nonvacuous : exists s t, surface_stress1 0 (3 / 5) = (4 / 5, s, t)
  /\ c_zz (stress1 0 (3 / 5) 0) = - (4 / 5)
  /\ t_zz (stress_Cartesian1 0 0 0 1) = - 1 / 2.
Proof.
  destruct (surface_stress1 0 (3 / 5)) as [[p s] t] eqn:E. exists s, t.
  assert (EP : p = 4 / 5).
  { destruct (surface_in 0 (3 / 5) ltac:(lra) ltac:(lra)) as [A _]. unfold pz in A. rewrite E in A. cbn in A.
    rewrite A. apply sqrt_eq; lra. }
  subst p. split; [reflexivity|]. split.
  - rewrite (proj1 (C58_surface _ _ _ _ _ E)) by lra. reflexivity.
  - destruct (centerline_stress1 0 1) as [a b] eqn:F. rewrite (proj2 (C58_axis 0 1 a b ltac:(lra) F)).
    cbn. unfold centerline_stress1 in F. injection F as _ <-. lra.
Qed.

(** ** C71: the interior stress fields are in equilibrium *)
Theorem C71_normal : forall nu x y z, 0 < x ^ 2 + y ^ 2 -> 0 < z ->
  let s := stress_Cartesian1 nu in
  (exists a b c, is_derive (fun t => t_xx (s t y z)) x a /\ is_derive (fun t => t_xy (s x t z)) y b
     /\ is_derive (fun t => t_xz (s x y t)) z c /\ a + b + c = 0)
  /\ (exists a b c, is_derive (fun t => t_xy (s t y z)) x a /\ is_derive (fun t => t_yy (s x t z)) y b
     /\ is_derive (fun t => t_yz (s x y t)) z c /\ a + b + c = 0)
  /\ (exists a b c, is_derive (fun t => t_xz (s t y z)) x a /\ is_derive (fun t => t_yz (s x t z)) y b
     /\ is_derive (fun t => t_zz (s x y t)) z c /\ a + b + c = 0).
Proof. intros nu x y z Hq Hz. exact (normal_equilibrium nu x y z Hq Hz). Qed.
Print Assumptions C71_normal.

Theorem C71_tangential : forall nu x y z, 0 < x ^ 2 + y ^ 2 -> 0 < z ->
  let s := stress_for_tangential_loading1 nu in
  (exists a b c, is_derive (fun t => t_xx (s t y z)) x a /\ is_derive (fun t => t_xy (s x t z)) y b
     /\ is_derive (fun t => t_xz (s x y t)) z c /\ a + b + c = 0)
  /\ (exists a b c, is_derive (fun t => t_xy (s t y z)) x a /\ is_derive (fun t => t_yy (s x t z)) y b
     /\ is_derive (fun t => t_yz (s x y t)) z c /\ a + b + c = 0)
  /\ (exists a b c, is_derive (fun t => t_xz (s t y z)) x a /\ is_derive (fun t => t_yz (s x t z)) y b
     /\ is_derive (fun t => t_zz (s x y t)) z c /\ a + b + c = 0).
Proof. intros nu x y z Hq Hz. exact (tangential_equilibrium nu x y z Hq Hz). Qed.
Print Assumptions C71_tangential.

Example C71_nonvacuous : 0 < 1 ^ 2 + 2 ^ 2 /\ 0 < 1 /\ stress_Cartesian1 0 1 2 1 <> stress_Cartesian1 0 1 2 0.
Proof.
  split; [lra|]. split; [lra|]. intros E. assert (F : t_xz (stress_Cartesian1 0 1 2 1) = t_xz (stress_Cartesian1 0 1 2 0)) by (rewrite E; reflexivity).
  destruct (normal_traction 0 1 2 ltac:(lra)) as (Z & _). rewrite Z in F.
  rewrite normal_nor in F by lra. unfold nor in F. cbn [t_xz] in F.
  pose proof (HMp (1 ^ 2 + 2 ^ 2) 1 ltac:(lra)) as HM. pose proof (HNp (1 ^ 2 + 2 ^ 2) 1 ltac:(lra)) as HN.
  set (M := hM (1 ^ 2 + 2 ^ 2) 1) in *. set (N := hN (1 ^ 2 + 2 ^ 2) 1) in *.
  assert (0 < 1 * M * N ^ 2 / ((M ^ 2 + N ^ 2) * (1 + M ^ 2))).
  { apply Rdiv_lt_0_compat; [|nra]. apply Rmult_lt_0_compat; [lra|]. nra. }
  unfold Rdiv in *. lra.
Qed.

(** ** C72: tractions on the surface *)
Theorem C72_normal : forall nu x y, x ^ 2 + y ^ 2 <> 1 ->
  let s := stress_Cartesian1 nu x y 0 in
  t_xz s = 0 /\ t_yz s = 0
  /\ (x ^ 2 + y ^ 2 < 1 -> t_zz s = - sqrt (1 - (x ^ 2 + y ^ 2)))
  /\ (1 < x ^ 2 + y ^ 2 -> t_zz s = 0).
Proof. exact normal_traction. Qed.
Print Assumptions C72_normal.

Theorem C72_tangential : forall nu x y, x ^ 2 + y ^ 2 <> 1 ->
  let s := stress_for_tangential_loading1 nu x y 0 in
  t_zz s = 0 /\ t_yz s = 0
  /\ (x ^ 2 + y ^ 2 < 1 -> t_xz s = - sqrt (1 - (x ^ 2 + y ^ 2)))
  /\ (1 < x ^ 2 + y ^ 2 -> t_xz s = 0).
Proof. exact tangential_traction. Qed.
Print Assumptions C72_tangential.

(** The axis branch of the tangential field is the limit of its formula. *)
Theorem C72_axis_limit : forall nu z, 0 <= z -> forall eps, 0 < eps ->
  exists delta, 0 < delta /\ forall x y, sqrt (x ^ 2 + y ^ 2) < delta ->
    let s := stress_for_tangential_loading1 nu x y z in let s0 := stress_for_tangential_loading1 nu 0 0 z in
    Rabs (t_xx s - t_xx s0) < eps /\ Rabs (t_yy s - t_yy s0) < eps /\ Rabs (t_zz s - t_zz s0) < eps
    /\ Rabs (t_yz s - t_yz s0) < eps /\ Rabs (t_xz s - t_xz s0) < eps /\ Rabs (t_xy s - t_xy s0) < eps.
Proof. exact tangential_axis_limit. Qed.
Print Assumptions C72_axis_limit.

(** The normal stress under a tangential load is the shear stress under a normal load. *)
Theorem C72_reciprocal : forall nu x y z, 0 <= z -> (x ^ 2 + y ^ 2 <> 1 \/ z <> 0) ->
  t_zz (stress_for_tangential_loading1 nu x y z) = t_xz (stress_Cartesian1 nu x y z).
Proof.
  intros nu x y z Hz Hs. destruct (Rlt_dec 0 (x ^ 2 + y ^ 2)) as [Hq|Hq].
  - rewrite tang_tang, normal_nor by assumption.
    pose proof (S_gt0 (x ^ 2 + y ^ 2) z Hz Hs) as HS. rewrite S_MN in HS.
    rewrite reg_zz; [| |apply N_lt1; lra|exact HS|apply q_MN; exact Hz]; [|apply N_ge0].
    unfold gzz0, nor. cbn [t_xz]. field. pose proof (pow2_ge_0 (hM (x ^ 2 + y ^ 2) z)). lra.
  - unfold stress_for_tangential_loading1, stress_Cartesian1. destruct (Rlt_dec 0 (x ^ 2 + y ^ 2)); [contradiction|]. reflexivity.
Qed.
Print Assumptions C72_reciprocal.

Example C72_nonvacuous : t_zz (stress_Cartesian1 (1 / 4) (3 / 5) 0 0) = - (4 / 5)
  /\ t_xz (stress_for_tangential_loading1 (1 / 4) (3 / 5) 0 0) = - (4 / 5)
  /\ t_zz (stress_Cartesian1 (1 / 4) 2 0 0) = 0.
Proof.
  assert (S : sqrt (1 - ((3 / 5) ^ 2 + 0 ^ 2)) = 4 / 5) by (apply sqrt_eq; lra).
  repeat split.
  - destruct (C72_normal (1 / 4) (3 / 5) 0 ltac:(lra)) as (_ & _ & A & _). rewrite A by lra. rewrite S. reflexivity.
  - destruct (C72_tangential (1 / 4) (3 / 5) 0 ltac:(lra)) as (_ & _ & A & _). rewrite A by lra. rewrite S. reflexivity.
  - destruct (C72_normal (1 / 4) 2 0 ltac:(lra)) as (_ & _ & _ & A). apply A. lra.
Qed.
