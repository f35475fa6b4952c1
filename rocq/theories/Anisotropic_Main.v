(** * The anisotropic Green's function: entries of the returned arrays *)

From Coq Require Import Reals Lra Lia Psatz Bool FunctionalExtensionality.
From Coquelicot Require Import Coquelicot.
From Verif Require Import Py FFT_Base GreenwoodTripp_Model GreenwoodTripp_Proofs Isotropic_Proofs Elasticity_Spec Anisotropic_Spec
  Anisotropic_Model Anisotropic_Tensor Anisotropic_Field Anisotropic_Proofs Anisotropic_Theory Anisotropic_Betti.
From Coq Require Import List.
Import ListNotations.
Local Open Scope R_scope.

Lemma map2_all : forall {A B D} (f : A -> B -> res D) (l : list A) (m : list B) out, length l = length m ->
  seq_res (map2 f l m) = Ret out ->
  length out = length l /\ forall k da db dd, (k < length l)%nat -> f (nth k l da) (nth k m db) = Ret (nth k out dd).
Proof.
  intros A B D f l. induction l as [|x l IH]; intros [|y m] out E H; try discriminate E.
  - cbn in H. injection H as <-. split; [reflexivity|]. intros k da db dd Hk. cbn in Hk. lia.
  - cbn [map2 seq_res] in H. destruct (f x y) as [z|e] eqn:Ez; [|discriminate]. cbn [bind] in H.
    destruct (seq_res (map2 f l m)) as [zs|e] eqn:Es; [|discriminate]. cbn [bind] in H. injection H as <-.
    injection E as E. destruct (IH m zs E Es) as [L N]. split; [cbn; lia|]. intros [|k] da db dd Hk; cbn [nth]; [exact Ez|].
    apply N. cbn in Hk. lia.
Qed.

Lemma abs_q_pos : forall x y, 0 < abs_q x y.
Proof.
  intros. unfold abs_q. destruct (Req_EM_T (sqrt (x ^ 2 + y ^ 2)) 0) as [E|E]; [lra|].
  pose proof (sqrt_pos (x ^ 2 + y ^ 2)). lra.
Qed.
Lemma abs_q_unit : forall x y, (x <> 0 \/ y <> 0) -> (x / abs_q x y) ^ 2 + (y / abs_q x y) ^ 2 = 1.
Proof.
  intros x y H. unfold abs_q. assert (P : 0 < x ^ 2 + y ^ 2) by (destruct H; nra).
  assert (Q := sqrt_lt_R0 _ P). assert (E : sqrt (x ^ 2 + y ^ 2) ^ 2 = x ^ 2 + y ^ 2) by (apply pow2_sqrt; lra).
  destruct (Req_EM_T (sqrt (x ^ 2 + y ^ 2)) 0) as [Z|Z]; [lra|].
  set (a := sqrt (x ^ 2 + y ^ 2)) in *. clearbody a.
  replace ((x / a) ^ 2 + (y / a) ^ 2) with ((x ^ 2 + y ^ 2) / a ^ 2) by (field; lra). rewrite <- E. field. lra.
Qed.
Lemma abs_q_00 : abs_q 0 0 = 1.
Proof.
  unfold abs_q. replace (0 ^ 2 + 0 ^ 2) with 0 by ring. rewrite sqrt_0. destruct (Req_EM_T 0 0); [reflexivity|lra].
Qed.
Lemma not_below : forall x y, x ^ 2 + y ^ 2 = 1 -> andb (below x tol6) (below y tol6) = false.
Proof.
  intros x y H. assert (T : 0 < tol6 < 1 / 10).
  { unfold tol6. split; [apply Rinv_0_lt_compat; lra|]. replace (1 / 10) with (/ 10) by field. apply Rinv_lt_contravar; lra. }
  unfold below. destruct (Rlt_dec (Rabs x) tol6) as [A|A]; [|reflexivity]. destruct (Rlt_dec (Rabs y) tol6) as [B|B]; [|reflexivity].
  exfalso. assert (X : x ^ 2 <= 1 / 100).
  { rewrite <- (pow2_abs x). pose proof (Rabs_pos x). nra. }
  assert (Y : y ^ 2 <= 1 / 100).
  { rewrite <- (pow2_abs y). pose proof (Rabs_pos y). nra. }
  lra.
Qed.
Lemma below_0 : below 0 tol6 = true.
Proof.
  unfold below. rewrite Rabs_R0. destruct (Rlt_dec 0 tol6) as [H|H]; [reflexivity|]. exfalso. apply H. unfold tol6. apply Rinv_0_lt_compat. lra.
Qed.

Section Entry.
  Variable solve : nat -> nat -> cmx -> cmx -> res cmx.
  Variable roots : list C -> list C.
  Variable null_space : cmx -> list (nat -> C).
  Hypothesis Hs : solve_ok solve.
  Hypothesis Hr : roots_short roots.
  Hypothesis Hn : null_ok null_space.
  Variables C11 C12 C44 : R.
  Variable Rm : rmat.
  Variable Cm : rmat.
  Hypothesis Hnew : aniso_new false C11 C12 C44 Rm = Ret Cm.
  Let c := rotated Rm (cubic C11 C12 C44).

  Lemma Cm_T0 : forall i j k l, (i < 3)%nat -> (j < 3)%nat -> (k < 3)%nat -> (l < 3)%nat ->
    elasticity_tensor Cm i j k l = T0 C11 C12 C44 Rm i j k l.
  Proof. intros. exact (aniso_tensor C11 C12 C44 Rm false Cm Hnew i j k l H H0 H1 H2). Qed.
  Lemma Cm_c : forall i j k l, (i < 3)%nat -> (j < 3)%nat -> (k < 3)%nat -> (l < 3)%nat ->
    elasticity_tensor Cm i j k l = c i j k l.
  Proof. intros. rewrite Cm_T0 by assumption. apply T_rotated. Qed.
  Lemma Cm_major : forall i j k l, (i < 3)%nat -> (j < 3)%nat -> (k < 3)%nat -> (l < 3)%nat ->
    elasticity_tensor Cm i j k l = elasticity_tensor Cm k l i j.
  Proof. intros. rewrite !Cm_T0 by assumption. apply T_major. Qed.

  Variable th : option R.

  Lemma gf_entry : forall lx ly Gs, greens_function solve roots null_space Cm th (Arr lx) (Arr ly) = Ret Gs ->
    length ly = length lx /\ length Gs = length lx /\ forall k x y d, (k < length lx)%nat -> x = nth k lx 0 -> y = nth k ly 0 ->
    exists M, greens_function1 solve roots null_space Cm th (x / abs_q x y) (y / abs_q x y) (scaled_thickness th (abs_q x y)) = Ret M
      /\ forall i j, nth k Gs d i j = (M i j / RtoC (abs_q x y))%C.
  Proof.
    intros lx ly Gs H. unfold greens_function in H. destruct (Nat.eqb_spec (length lx) (length ly)) as [E|E]; [|discriminate].
    cbn [negb] in H. destruct (map2_all _ _ _ _ E H) as [L N]. split; [congruence|]. split; [exact L|].
    intros k x y d Hk -> ->. specialize (N k 0 0 d Hk).
    destruct (greens_function1 _ _ _ _ _ _ _ _) as [M|e]; [|discriminate]. cbn [bind] in N. injection N as N.
    exists M. split; [reflexivity|]. intros i j. rewrite <- N. reflexivity.
  Qed.
  Lemma st_entry : forall lx ly Ss, stiffness solve roots null_space Cm th (Arr lx) (Arr ly) = Ret Ss ->
    length ly = length lx /\ length Ss = length lx /\ forall k x y d, (k < length lx)%nat -> x = nth k lx 0 -> y = nth k ly 0 ->
    exists M, stiffness1 solve roots null_space Cm th (x / abs_q x y) (y / abs_q x y) (scaled_thickness th (abs_q x y)) = Ret M
      /\ forall i j, nth k Ss d i j = (M i j * RtoC (abs_q x y))%C.
  Proof.
    intros lx ly Gs H. unfold stiffness in H. destruct (Nat.eqb_spec (length lx) (length ly)) as [E|E]; [|discriminate].
    cbn [negb] in H. destruct (map2_all _ _ _ _ E H) as [L N]. split; [congruence|]. split; [exact L|].
    intros k x y d Hk -> ->. specialize (N k 0 0 d Hk).
    destruct (stiffness1 _ _ _ _ _ _ _ _) as [M|e]; [|discriminate]. cbn [bind] in N. injection N as N.
    exists M. split; [reflexivity|]. intros i j. rewrite <- N. reflexivity.
  Qed.

  (** The matrices behind a Green's function for a wavevector that is not zero. *)
  Lemma gf1_modes : forall x y h M, x ^ 2 + y ^ 2 = 1 ->
    greens_function1 solve roots null_space Cm th x y h = Ret M ->
    exists n U F qz eta Ai, make_U_and_F solve roots null_space Cm x y h = Ret (n, U, F)
      /\ modes_of Cm x y h n U F qz eta /\ is_eye n (cprod n (transpose F) Ai) /\ is_eye n (cprod n Ai (transpose F))
      /\ (forall i j, (i < n)%nat -> (j < 3)%nat -> cprod n (transpose F) M i j = transpose U i j).
  Proof.
    intros x y h M H E. unfold greens_function1 in E. rewrite (not_below x y H), andb_false_r in E.
    destruct (make_U_and_F solve roots null_space Cm x y h) as [[[n U] F]|e] eqn:EU; [|discriminate]. cbn [bind] in E.
    destruct (U_and_F_modes solve roots null_space Hn Cm x y h n U F Hr EU) as (qz & eta & MO).
    destruct (Hs _ _ _ _ _ E) as ((Ai & A1 & A2) & A3). exists n, U, F, qz, eta, Ai. auto.
  Qed.

  Hypothesis H44 : 0 < C44.
  Hypothesis H1 : 0 < C11 - C12.
  Hypothesis H2 : 0 < C11 + 2 * C12.
  Hypothesis Horth : orthogonal Rm.

  Lemma unit_nz : forall x y, x ^ 2 + y ^ 2 = 1 -> x <> 0 \/ y <> 0.
  Proof. intros x y H. destruct (Req_dec x 0) as [->|X]; [right; intros ->; lra|left; exact X]. Qed.
  Lemma modes_strict : forall x y h n U F qz eta, x ^ 2 + y ^ 2 = 1 -> modes_of Cm x y h n U F qz eta -> n = 3%nat ->
    forall a, (a < 3)%nat -> snd (qz a) < 0.
  Proof.
    intros x y h n U F qz eta H MO E a Ha. pose proof (mo_half _ _ _ _ _ _ _ _ _ MO E a Ha) as L.
    assert (N : snd (qz a) <> 0).
    { apply (mode_complex C11 C12 C44 H44 H1 H2 Rm Horth Cm Cm_T0 x y (qz a) (eta a)).
      - destruct (unit_nz x y H); auto.
      - apply (mo_ker _ _ _ _ _ _ _ _ _ MO). lia.
      - apply (mo_nz _ _ _ _ _ _ _ _ _ MO). lia. }
    lra.
  Qed.

  Lemma response1 : forall x y M (t : nat -> C), (x <> 0 \/ y <> 0) ->
    greens_function1 solve roots null_space Cm th (x / abs_q x y) (y / abs_q x y) (scaled_thickness th (abs_q x y)) = Ret M ->
    exists u, elastic_field c u (fun i X Y => wave x y (t i) X Y) /\
      (forall l X Y, (l < 3)%nat -> u l X Y 0 = wave x y (csum3 (fun i => M i l / RtoC (abs_q x y) * t i))%C X Y) /\
      ((th = None \/ exists h qz v, th = Some h /\ plane_wave c x y qz v /\ (exists l, (l < 3)%nat /\ v l <> RtoC 0) /\ h * - snd qz > 100) /\
         (forall l X Y, (l < 3)%nat -> is_lim (fun z => u l X Y z) m_infty 0)
       \/ exists h, th = Some h /\ forall l X Y, (l < 3)%nat -> u l X Y (- h) = 0).
  Proof.
    intros x y M t Hq E. assert (HU := abs_q_unit x y Hq). assert (HA := abs_q_pos x y). set (a := abs_q x y) in *.
    destruct (gf1_modes _ _ _ _ HU E) as (n & U & F & qz & eta & Ai & _ & MO & _ & A2 & A3).
    destruct (modes_response Cm (x / a) (y / a) _ n U F qz eta M Ai a t HA MO A2 A3) as (u & B1 & B2 & B3 & B4).
    replace (a * (x / a)) with x in * by (field; lra). replace (a * (y / a)) with y in * by (field; lra).
    exists u. split; [|split; [exact B2|]].
    - eapply elastic_field_ext; [exact Cm_c|reflexivity|exact B1].
    - destruct (mo_n _ _ _ _ _ _ _ _ _ MO) as [E3|(h & Eh & E6 & _)].
      + left. split.
        * destruct th as [h|] eqn:ET; [right|left; reflexivity]. cbn [scaled_thickness] in MO.
          destruct (mo_big _ _ _ _ _ _ _ _ _ MO (h * a) eq_refl E3) as (al & Hal & BG).
          exists h, (RtoC a * qz al)%C, (eta al). split; [reflexivity|]. split; [|split].
          -- assert (K := mo_ker _ _ _ _ _ _ _ _ _ MO al ltac:(lia)). intros i Hi. specialize (K i Hi).
             transitivity (- (RtoC a * RtoC a * csum3 (fun l => bulkop Cm (RtoC (x / a)) (RtoC (y / a)) (qz al) i l * eta al l)))%C;
               [|rewrite K; ring].
             unfold csum3, bulkop, csum3s, csum3. rewrite !Cm_c by lia. unfold qvec, wavevector.
             replace (RtoC x) with (RtoC a * RtoC (x / a))%C by (rewrite <- RtoC_mult; f_equal; field; lra).
             replace (RtoC y) with (RtoC a * RtoC (y / a))%C by (rewrite <- RtoC_mult; f_equal; field; lra).
             ring.
          -- apply (mo_nz _ _ _ _ _ _ _ _ _ MO). lia.
          -- cbn. nra.
        * apply B3. intros al Hal. apply (modes_strict _ _ _ _ _ _ _ _ HU MO E3). lia.
      + right. destruct th as [h0|] eqn:ET; [|discriminate Eh]. exists h0. split; [reflexivity|].
        apply B4; [exact E6|reflexivity].
  Qed.

  (** The uniform load of a layer. *)
  Lemma gamma_response : forall h M (t : nat -> C), th = Some h -> h <> 0 ->
    greens_function1 solve roots null_space Cm th 0 0 (Some h) = Ret M ->
    exists u, elastic_field c u (fun i X Y => wave 0 0 (t i) X Y) /\
      (forall l X Y, (l < 3)%nat -> u l X Y 0 = wave 0 0 (csum3 (fun i => M i l * t i))%C X Y) /\
      (forall l X Y, (l < 3)%nat -> u l X Y (- h) = 0).
  Proof.
    intros h M t ET Hh E. unfold greens_function1 in E. rewrite below_0 in E. cbn [andb] in E. rewrite ET in E.
    cbn [gamma_stiffness bind] in E. unfold inv in E. apply Hs in E. destruct E as ((Ai & A1 & A2) & A3).
    set (K := fun i j : nat => RtoC ((match i, j with
               | 0, 0 => Cm 4 4 | 0, 1 => Cm 3 4 | 0, _ => Cm 2 4
               | 1, 0 => Cm 3 4 | 1, 1 => Cm 3 3 | 1, _ => Cm 2 3
               | _, 0 => Cm 2 4 | _, 1 => Cm 2 3 | _, _ => Cm 2 2
               end)%nat / h)) in *.
    assert (KC : forall i l, (i < 3)%nat -> (l < 3)%nat -> K i l = RtoC (c i 2 2 l / h)).
    { intros i l Hi Hl. rewrite <- Cm_c by lia. idx Hi; idx Hl; try reflexivity; unfold K; f_equal; f_equal.
      - symmetry. exact (Cm_major 0 2 1 2 ltac:(lia) ltac:(lia) ltac:(lia) ltac:(lia))%nat.
      - symmetry. exact (Cm_major 0 2 2 2 ltac:(lia) ltac:(lia) ltac:(lia) ltac:(lia))%nat.
      - symmetry. exact (Cm_major 1 2 2 2 ltac:(lia) ltac:(lia) ltac:(lia) ltac:(lia))%nat. }
    assert (KS : forall i l, (i < 3)%nat -> (l < 3)%nat -> K i l = K l i).
    { intros i l Hi Hl. idx Hi; idx Hl; reflexivity. }
    (* the solution is the two-sided inverse *)
    assert (GM : forall i j, (i < 3)%nat -> (j < 3)%nat -> M i j = Ai i j).
    { intros i j Hi Hj. rewrite <- (eye_l 3 (cprod 3 Ai K) M i j A2 Hi). rewrite cprod_assoc.
      transitivity (Csum 3 (fun k => Ai i k * eye k j)%C).
      - apply Csum_ext. intros k Hk. rewrite A3 by assumption. reflexivity.
      - rewrite Csum3. unfold csum3, eye. idx Hj; cbn [Nat.eqb]; ring. }
    assert (MK : forall i j, (i < 3)%nat -> (j < 3)%nat -> csum3 (fun k => M i k * K k j)%C = if Nat.eqb i j then RtoC 1 else RtoC 0).
    { intros i j Hi Hj. rewrite <- (A2 i j Hi Hj). unfold cprod. rewrite Csum3. apply csum3_ext. intros k Hk. rewrite GM by assumption. reflexivity. }
    set (w := fun l => fst (csum3 (fun i => M i l * t i)%C)).
    pose (u := fun (l : nat) (X Y z : R) => w l * (1 + z / h)).
    assert (P2 : forall l, pd 2 (u l) = fun _ _ _ => w l / h).
    { intros l. do 3 (apply functional_extensionality; intro). apply is_derive_unique. unfold u. auto_derive; [trivial|]. field. exact Hh. }
    assert (P0 : forall l, pd 0 (u l) = fun _ _ _ => 0).
    { intros l. do 3 (apply functional_extensionality; intro). apply is_derive_unique. unfold u. auto_derive; [trivial|ring]. }
    assert (P1 : forall l, pd 1 (u l) = fun _ _ _ => 0).
    { intros l. do 3 (apply functional_extensionality; intro). apply is_derive_unique. unfold u. auto_derive; [trivial|ring]. }
    assert (ST : forall i j, astress c u i j = fun _ _ _ => sum3s (fun l => c i j 2%nat l * (w l / h))).
    { intros i j. do 3 (apply functional_extensionality; intro). unfold astress, sum3s. rewrite !P0, !P1, !P2. ring. }
    assert (CD : forall k, differentiable (fun _ _ _ => k)).
    { intros k X Y z. repeat split; apply ex_derive_const. }
    assert (CP : forall k v X Y z, pd v (fun _ _ _ => k) X Y z = 0).
    { intros k [|[|v]] X Y z; cbn [pd]; apply Derive_const. }
    exists u. split; [constructor|split].
    - intros l _ X Y z. unfold u. repeat split; auto_derive; trivial.
    - intros i j _ _. rewrite ST. apply CD.
    - intros i X Y z _. rewrite !ST, !CP. ring.
    - intros i X Y Hi. rewrite ST.
      transitivity (fst (csum3 (fun l => K i l * csum3 (fun m => M m l * t m))%C)).
      + unfold csum3 at 1, sum3s. rewrite !KC by lia. fold (w 0%nat) (w 1%nat) (w 2%nat).
        assert (W : forall k a, fst (RtoC k * a)%C = k * fst a) by (intros; cbn; ring).
        assert (Pl : forall a b : C, fst (a + b)%C = fst a + fst b) by reflexivity.
        rewrite !Pl, !W. unfold w. field. exact Hh.
      + transitivity (fst (t i)).
        * f_equal. transitivity (csum3 (fun m => csum3 (fun l => M m l * K l i) * t m))%C.
          -- unfold csum3. rewrite !(KS i) by lia. ring.
          -- unfold csum3 at 1. rewrite !MK by lia. idx Hi; cbn [Nat.eqb]; ring.
        * unfold wave. rewrite !Rmult_0_l, Rplus_0_r, cos_0, sin_0. ring.
    - intros l X Y _. unfold u, wave. rewrite !Rmult_0_l, Rplus_0_r, cos_0, sin_0. unfold w. field. exact Hh.
    - intros l X Y _. unfold u. field. exact Hh.
  Qed.
End Entry.
