(** * C88: floating point runs on the periodic half-space

    The substrate of the package transforms the forces with a fast Fourier
    transform, multiplies by the Green's function and transforms back
    (FFTElasticHalfSpace.py 345-380); the order of its operations is that of a
    library.  Here nothing is assumed about it but how far the displacements it
    returns are from the exact response to the forces it was given ([rho]), and
    that finite displacements come from finite forces ([spreads], in [done]). *)
From Coq Require Import Reals List Bool Arith Lia Lra ZArith.
From Coq Require Import Floats.SpecFloat.
From Coquelicot Require Import Complex Coquelicot.
From Verif Require Prop_Contact.
From Verif Require Import FFT_Base HalfSpace_Spec Contact_Spec Signorini_Spec Signorini_Base Signorini_Periodic Prop_Signorini.
From Verif Require Import Float_Model Float_Spec Float_Proofs Float_IEEE Float_Round_Spec Float_Round
  Float_Double Float_Double_Witness Prop_Float Prop_FloatReal.
From Coq Require Import List.
Import ListNotations.
Local Open Scope R_scope.

Section C88_half_space.
  Context {F : Type}.
  Variable K : Arith F.
  Variable fin : F -> Prop.
  Hypothesis L : laws K fin.
  Variable val : F -> R.
  Variables u eta : R.
  Hypothesis V : rounding K fin val u eta.
  Variable c : fcfg (F:=F) (P:=nat * nat).
  Variables (n m : nat) (lx ly : R).
  Hypothesis N2 : (2 <= n)%nat.
  Hypothesis M2 : (2 <= m)%nat.
  Hypothesis X : 0 < lx.
  Hypothesis Y : 0 < ly.
  Local Notation g := [n; m].
  Local Notation lower := (lower val u c).
  Local Notation upper := (upper val u eta c).

  (** Every point of the grid belongs to the surface. *)
  Definition whole : Prop := forall x y, (x < n)%nat -> (y < m)%nat -> surface c (x, y).
  (** Pressures in units of the contact modulus: forces divided by [scale], the area of a
      pixel times the modulus. *)
  Definition pressure (scale : R) (o : foutcome (F:=F) (P:=nat * nat)) : field :=
    fun x y => press val o (x, y) / scale.
  Definition height : field := fun x y => val (k_h c (x, y)).
  (** The returned displacements are the response to the returned forces up to [rho]. *)
  Definition responds (scale : R) (o : foutcome (F:=F) (P:=nat * nat)) (rho U : field) : Prop :=
    periodic_response g lx ly (pressure scale o) U
    /\ forall x y, (x < n)%nat -> (y < m)%nat -> Rabs (val (o_x o (x, y)) - U x y) <= rho x y.
  (** A run as in the other theorems of C88: success with a step of constant contact area. *)
  Definition good_run (o : foutcome (F:=F) (P:=nat * nat)) : Prop :=
    load_pos K c /\ (exists maxiter, done K fin c maxiter o) /\ gaps_fin K fin c o /\ countable K fin c
    /\ aeq K (o_tau o) (a0 K) = false /\ whole
    /\ forall p, surface c p -> o_active o p = false -> press val o p = 0.

  Lemma good_point : forall o scale rho U, good_run o -> 0 < scale -> responds scale o rho U ->
    forall x y, (x < n)%nat -> (y < m)%nat ->
    let G := Signorini_Spec.gap height (val (o_offset o)) U x y in
    0 <= pressure scale o x y /\ - (lower o (x, y) + rho x y) <= G
    /\ (0 < pressure scale o x y -> G <= upper o (x, y) + rho x y).
  Proof.
    intros o scale rho U (LP & (k & D) & GF & CO & TA & W & IN) S0 (PR & RH) x y Hx Hy G.
    specialize (RH x y Hx Hy). pose proof (W x y Hx Hy) as Sp.
    destruct (C88_pressure K fin L val u eta V c LP k o D (x, y) (proj1 Sp)) as [P0 _].
    pose proof (C88_penetration K fin L val u eta V c k o D GF (x, y) Sp) as PE.
    assert (E : G = Float_Round_Spec.gap val c o (x, y) + (U x y - val (o_x o (x, y)))).
    { unfold G, Signorini_Spec.gap, Float_Round_Spec.gap, height. ring. }
    apply Rabs_le_between in RH. rewrite E. split; [|split].
    - apply Rmult_le_pos; [exact P0|left; apply Rinv_0_lt_compat, S0].
    - lra.
    - intro PP. assert (A : o_active o (x, y) = true).
      { destruct (o_active o (x, y)) eqn:A; [reflexivity|]. exfalso. unfold pressure in PP. rewrite (IN _ Sp A) in PP. lra. }
      pose proof (C88_touch K fin L val u eta V c k o D CO TA (x, y) Sp A). lra.
  Qed.

  (** ** Distance from the solution of the contact problem *)
  (** [ps], [us]: the contact state of C78 at the heights and the offset returned. *)
  Theorem C88_half_space : forall o scale rho U ps us, good_run o -> 0 < scale -> responds scale o rho U ->
    in_contact g lx ly height (val (o_offset o)) ps us ->
    let p := pressure scale o in
    let b := HalfSpace_Spec.total g (fun x y => p x y * (upper o (x, y) + rho x y) + ps x y * (lower o (x, y) + rho x y)) in
    distance g p U ps us <= b
    /\ INR n * INR m * (mean g p - mean g ps) ^ 2 <= uniform g lx ly * b
    /\ forall q, (forall k l, (k < n)%nat -> (l < m)%nat -> wavenumber g lx ly k l <= q) ->
       forall x y, (x < n)%nat -> (y < m)%nat -> (p x y - ps x y) ^ 2 <= q / 2 * b.
  Proof.
    intros o scale rho U ps us GR S0 RS C p b.
    assert (D : distance g p U ps us <= b).
    { unfold distance, inner, b, HalfSpace_Spec.total. cbn [gx gy nth]. apply Rsum2_le. intros x y Hx Hy.
      destruct (good_point o scale rho U GR S0 RS x y Hx Hy) as (P0 & G1 & G2). fold p in P0, G2.
      destruct (proj2 C x y (conj Hx Hy)) as (C1 & C2 & C3).
      set (G := Signorini_Spec.gap height (val (o_offset o)) U x y) in *.
      set (Gs := Signorini_Spec.gap height (val (o_offset o)) us x y) in *.
      replace (U x y - us x y) with (G - Gs) by (unfold G, Gs, Signorini_Spec.gap; ring).
      assert (0 <= p x y * Gs) by (apply Rmult_le_pos; assumption).
      assert (0 <= (G + (lower o (x, y) + rho x y)) * ps x y) by (apply Rmult_le_pos; lra).
      assert (p x y * G <= p x y * (upper o (x, y) + rho x y)).
      { destruct (Rle_lt_or_eq_dec _ _ P0) as [Q|Q]; [apply Rmult_le_compat_l; [lra|exact (G2 Q)]|rewrite <- Q; lra]. }
      nra. }
    pose proof (k0_pos n m lx ly N2 M2 X Y) as K0. destruct RS as [PR _]. fold p in PR.
    split; [exact D|]. split.
    - eapply Rle_trans; [apply (distance_mean n m lx ly N2 M2 X Y p U ps us PR (proj1 C))|].
      apply Rmult_le_compat_l; [lra|exact D].
    - intros q Q x y Hx Hy.
      assert (W : forall k l, (k < n)%nat -> (l < m)%nat -> ~ (k = 0 /\ l = 0)%nat -> 0 < wavenumber g lx ly k l).
      { intros k l Hk Hl NZ. apply Prop_Contact.wavenumber_pos; try assumption; try (split; assumption). }
      assert (Q0 : 0 < q) by (apply Rlt_le_trans with (wavenumber g lx ly 1 0); [apply W; lia|apply Q; lia]).
      assert (A : forall k l, (k < n)%nat -> (l < m)%nat -> 2 / q <= sym n m lx ly k l).
      { intros k l Hk Hl. unfold sym. destruct (Nat.eqb_spec k 0) as [Ek|Ek], (Nat.eqb_spec l 0) as [El|El]; cbn [andb].
        1: { pose proof (Q 1%nat 0%nat ltac:(lia) ltac:(lia)). pose proof (Q 0%nat 1%nat ltac:(lia) ltac:(lia)).
             replace (2 / q) with (/ (q / 2)) by (field; lra). apply Rinv_le_contravar; [exact K0|]. unfold uniform. lra. }
        all: apply Rmult_le_compat_l; [lra|]; apply Rinv_le_contravar; [apply W; try assumption; tauto|apply Q; assumption]. }
      pose proof (Comp_low n m lx ly N2 M2 (2 / q) (fun x y => p x y - ps x y) A) as LO.
      cbn beta in LO. rewrite <- (distance_Comp n m lx ly N2 M2 X Y p U ps us PR (proj1 C)) in LO.
      pose proof (Rsum2_term n m (fun x y => (p x y - ps x y) * (p x y - ps x y)) x y
        ltac:(intros; apply Rle_0_sqr) Hx Hy) as T. cbn beta in T.
      apply (Rmult_le_reg_l (2 / q)); [apply Rdiv_lt_0_compat; lra|].
      replace (2 / q * (q / 2 * b)) with b by (field; lra).
      apply Rle_trans with (2 / q * Rsum2 n m (fun x y => (p x y - ps x y) * (p x y - ps x y))); [|lra].
      apply Rmult_le_compat_l; [left; apply Rdiv_lt_0_compat; lra|]. eapply Rle_trans; [|exact T]. right. ring.
  Qed.

  (** ** The load *)
  Theorem C88_half_space_load : forall o scale rho U ps us eps, good_run o -> 0 < scale -> responds scale o rho U ->
    in_contact g lx ly height (val (o_offset o)) ps us -> 0 <= eps ->
    (forall x y, (x < n)%nat -> (y < m)%nat -> lower o (x, y) + rho x y <= eps /\ upper o (x, y) + rho x y <= eps) ->
    let p := pressure scale o in
    nearly_in_contact g height (val (o_offset o)) p U eps
    /\ Rabs (sqrt (mean g p) - sqrt (mean g ps)) <= sqrt (uniform g lx ly * eps).
  Proof.
    intros o scale rho U ps us eps GR S0 RS C E0 E p.
    assert (NC : nearly_in_contact g height (val (o_offset o)) p U eps).
    { intros x y [Hx Hy]. cbn [gx gy nth] in Hx, Hy.
      destruct (good_point o scale rho U GR S0 RS x y Hx Hy) as (P0 & G1 & G2). fold p in P0, G2.
      destruct (E x y Hx Hy). split; [exact P0|]. split; [lra|]. intro Q. specialize (G2 Q). lra. }
    split; [exact NC|]. exact (Signorini_Periodic.load_error n m lx ly N2 M2 X Y _ _ _ _ ps us eps (proj1 RS) C E0 NC).
  Qed.

  (** The response of the half-space exists, so [responds] holds for some [rho]; it says how
      accurate the transforms are. *)
  Theorem C88_half_space_exists : forall o scale, exists U, periodic_response g lx ly (pressure scale o) U
    /\ (forall U', periodic_response g lx ly (pressure scale o) U' ->
          forall x y, (x < n)%nat -> (y < m)%nat -> U' x y = U x y)
    /\ responds scale o (fun x y => Rabs (val (o_x o (x, y)) - U x y)) U.
  Proof.
    intros o scale. exists (Comp n m lx ly (pressure scale o)).
    pose proof (Comp_response n m lx ly N2 M2 X Y (pressure scale o)) as PR. split; [exact PR|]. split.
    - intros U' R' x y Hx Hy. exact (response_Comp n m lx ly N2 M2 X Y _ _ R' x y Hx Hy).
    - split; [exact PR|]. intros. right. reflexivity.
  Qed.
End C88_half_space.
Print Assumptions C88_half_space.
Print Assumptions C88_half_space_load.
Print Assumptions C88_half_space_exists.

(** ** A run with doubles *)
(** The rows of C78's example, heights 1/2 and -1/2 on 2 x 2 points of a cell of 1 x 1, with forces
    in units in which all waves of this surface have the compliance 2. *)
Definition gridD : list (nat * nat) := [(0, 0); (0, 1); (1, 0); (1, 1)]%nat.
Definition diag (d : D64) (p q : nat * nat) : D64 :=
  if andb (Nat.eqb (fst p) (fst q)) (Nat.eqb (snd p) (snd q)) then d else dbl 0 0.
Definition timesD (mt : nat * nat -> nat * nat -> D64) (f : nat * nat -> D64) (p : nat * nat) : D64 :=
  asum AD (map (fun q => amul AD (mt p q) (f q)) gridD).
Definition rowsD : fcfg (F:=D64) (P:=nat * nat) :=
  mkFcfg gridD (fun _ => true) (fun _ => false) (fun p => if Nat.eqb (fst p) 0 then dbl 1 (-1) else dbl (-1) (-1))
    (timesD (diag (dbl (-2) 0))) (timesD (diag (dbl (-1) (-1))))
    None None (dbl 0 0) (Some (fun p => if Nat.eqb (fst p) 0 then dbl 5 (-3) else dbl 0 0)) None
    (dbl 1 (-2)) (dbl 1 (-2)) (dbl 1 (-2)) (dbl 0 0) (dbl 0 0) 10 2 (fun _ _ _ => None).
Definition seenD (r : foutcome (F:=D64) (P:=nat * nat) + fexn) :=
  match r with
  | inl o => inl ((o_success o, o_str o), (raw (o_offset o), raw (o_tau o)),
      map (fun p => (raw (o_x o p), raw (o_jac o p), o_active o p)) gridD)
  | inr e => inr e
  end.
Lemma rowsD_run : seenD (frun AD rowsD 4) =
  inl ((true, FCg), (S754_zero false, S754_finite false 4503599627370496 (-53)),
       [(S754_finite false 4503599627370496 (-53), S754_finite false 4503599627370496 (-54), true);
        (S754_finite false 4503599627370496 (-53), S754_finite false 4503599627370496 (-54), true);
        (S754_zero false, S754_zero true, false); (S754_zero false, S754_zero true, false)]).
Proof. vm_compute. reflexivity. Qed.
Example C88_nonvacuous_half_space : exists o, good_run AD finD val64 rowsD 2 2 o
  /\ responds val64 2 2 1 1 (/ (2 * PI)) o (fun _ _ => 0) half_disp
  /\ in_contact [2; 2]%nat 1 1 (height val64 rowsD) (val64 (o_offset o)) half_pressure half_disp
  /\ press val64 o (0, 0)%nat = / 4 /\ press val64 o (1, 0)%nat = 0.
Proof.
  pose proof rowsD_run as H. destruct (frun AD rowsD 4) as [o|e] eqn:E; [|discriminate]. exists o.
  unfold seenD in H. cbn [map gridD] in H.
  injection H as A1 A2 HO HT X1 J1 C1 X2 J2 C2 X3 J3 C3 X4 J4 C4.
  assert (BM : by_matrix AD rowsD (diag (dbl (-2) 0))) by (intros f p _; apply (l_sum AD finD double_laws)).
  assert (ON : forall x y, (x < 2)%nat -> (y < 2)%nat -> In (x, y) gridD).
  { intros [|[|x]] [|[|y]] Hx Hy; try lia; cbn; tauto. }
  assert (Q4 : forall p, raw (o_jac o p) = S754_finite false 4503599627370496 (-54) -> press val64 o p = / 4).
  { intros p Q. unfold press, val64. rewrite Q, num_small. change (Z.pow_pos 2 54) with 18014398509481984%Z. cbv iota. lra. }
  assert (Q0 : forall p, raw (o_jac o p) = S754_zero true -> press val64 o p = 0).
  { intros p Q. unfold press, val64. rewrite Q. reflexivity. }
  assert (QX : forall p, raw (o_x o p) = S754_finite false 4503599627370496 (-53) -> val64 (o_x o p) = 1 / 2).
  { intros p Q. unfold val64. rewrite Q, num_small. change (Z.pow_pos 2 53) with 9007199254740992%Z. cbv iota. lra. }
  assert (QY : forall p, raw (o_x o p) = S754_zero false -> val64 (o_x o p) = 0).
  { intros p Q. unfold val64. rewrite Q. reflexivity. }
  assert (OF : val64 (o_offset o) = 0) by (unfold val64; rewrite HO; reflexivity).
  assert (HH : forall x y, height val64 rowsD x y = if Nat.eqb x 0 then 1 / 2 else - 1 / 2).
  { intros x y. unfold height. cbn [rowsD k_h fst]. destruct (Nat.eqb x 0); num. }
  split; [|split; [|split; [|split]]].
  - split; [intros Fx Q; discriminate|].
    split. { exists 4%nat. split; [reflexivity|]. split; [exact (matrix_spreads AD finD double_laws rowsD _ BM)|].
             split; [vm_compute; exact I|]. split; [exact E|]. split; assumption. }
    split. { intros p (Ip & _). unfold finD.
             assert (X : o_offset o = mk64 (S754_zero false)) by (rewrite <- HO; symmetry; apply mk_of_raw). rewrite X.
             destruct Ip as [<-|[<-|[<-|[<-|[]]]]].
             - rewrite <- (mk_of_raw (o_x o (0, 0)%nat)), X1. vm_compute. exact I.
             - rewrite <- (mk_of_raw (o_x o (0, 1)%nat)), X2. vm_compute. exact I.
             - rewrite <- (mk_of_raw (o_x o (1, 0)%nat)), X3. vm_compute. exact I.
             - rewrite <- (mk_of_raw (o_x o (1, 1)%nat)), X4. vm_compute. exact I. }
    split. { intros k Hk. cbn [rowsD k_pts gridD length] in Hk.
             destruct k as [|[|[|[|[|k]]]]]; [| | | | |exfalso; lia]; vm_compute; exact I. }
    split. { cbn [aeq AD]. rewrite HT. reflexivity. }
    split. { intros x y Hx Hy. split; [exact (ON x y Hx Hy)|split; reflexivity]. }
    intros p (Ip & _) Ac. destruct Ip as [<-|[<-|[<-|[<-|[]]]]]; try congruence; apply Q0; assumption.
  - pose proof PI_RGT_0 as PP.
    assert (EP : forall x y, (x < 2)%nat -> (y < 2)%nat -> pressure val64 (/ (2 * PI)) o x y = half_pressure x y).
    { intros x y Hx Hy. unfold pressure, half_pressure.
      destruct x as [|[|x]]; [| |lia]; (destruct y as [|[|y]]; [| |lia]); cbn [Nat.eqb].
      1: rewrite (Q4 _ J1). 2: rewrite (Q4 _ J2). 3: rewrite (Q0 _ J3). 4: rewrite (Q0 _ J4). all: field; lra. }
    split.
    + destruct half_contact as [[P1 P2] _]. split.
      * intros k l Gk Z. specialize (P1 k l Gk Z). cbn [gx gy nth] in *. rewrite (fft2_ext _ _ _ _ k l EP). exact P1.
      * unfold mean, HalfSpace_Spec.total in *. cbn [gx gy nth] in *. rewrite (Rsum2_ext _ _ _ _ EP). exact P2.
    + intros x y Hx Hy. assert (Z : val64 (o_x o (x, y)) = half_disp x y).
      { unfold half_disp. destruct x as [|[|x]]; [| |lia]; (destruct y as [|[|y]]; [| |lia]); cbn [Nat.eqb];
          [apply QX|apply QX|apply QY|apply QY]; assumption. }
      rewrite Z, Rminus_diag_eq, Rabs_R0 by reflexivity. lra.
  - split; [exact (proj1 half_contact)|]. intros x y G. destruct half_contact as [_ C]. specialize (C x y G).
    unfold Signorini_Spec.gap in *. rewrite HH, OF. unfold wave_rows in C. cbn in C. unfold half_pressure, half_disp in *.
    destruct (Nat.eqb x 0); lra.
  - apply Q4; assumption.
  - apply Q0; assumption.
Qed.
