(** * C85: the contact solver in floating point arithmetic

    The statements hold for every arithmetic that obeys the laws of
    Float_Spec.v, whatever the order of summation; IEEE 754 double precision is
    one ([C85_binary64]).  nan and infinities are ordinary values of it. *)
From Coq Require Import List Bool Arith Lia ZArith.
From Coq Require Import Floats.SpecFloat.
From Verif Require Import Float_Model Float_Spec Float_Proofs Float_IEEE Float_Witness.
Import ListNotations.

Section C85.
  Context {F P : Type}.
  Variable K : Arith F.
  Variable fin : F -> Prop.
  Hypothesis L : laws K fin.
  Variable c : fcfg (F:=F) (P:=P).

  (** ** What every result is *)
  Theorem C85_result : forall maxiter o, frun K c maxiter = inl o ->
    (* displacements are those of the forces *)
    o_x o = k_disp c (o_full o) /\ (forall p, o_jac o p = aopp K (o_full o p))
    (* the energy is half the work of the forces *)
    /\ o_fun o = adiv K (aopp K (asum K (map (fun p => amul K (o_full o p) (o_x o p))
                                        (filter (k_slice c) (k_pts c))))) (anat K 2)
    (* the offset is the given one unless a load is prescribed *)
    /\ (k_ext c = None -> o_offset o = k_offset c)
    (* iterations and evaluations of the substrate *)
    /\ 1 <= o_nit o <= maxiter /\ (o_success o = false -> o_nit o = maxiter)
    /\ 1 + o_nit o <= o_nfev o <= 1 + 2 * o_nit o
    /\ (k_hard c = None -> o_nfev o = 1 + 2 * o_nit o).
  Proof.
    intros n o H. destruct (run_inv K c n o H) as (s & h & Rs & Fi & E & _).
    destruct (loop_count K c n _ None o H) as (A1 & A2 & A3 & A4 & A5); [discriminate|].
    specialize (A2 eq_refl). cbn [fstart z_nit z_nfev] in *.
    split; [rewrite E; reflexivity|]. split; [intro p; rewrite E; reflexivity|].
    split; [rewrite E; reflexivity|]. split.
    { intro X. rewrite E. unfold fresult, fsecond. cbv zeta. cbn [o_offset w_state z_off].
      rewrite (first_off K c s h X Fi). apply (reach_off K c X s Rs). }
    split; [lia|]. split; [exact A3|]. split; [lia|].
    intro Q. rewrite (A5 Q). lia.
  Qed.

  (** ** Success means finite numbers *)
  Theorem C85_finite : spreads fin c -> forall maxiter o, frun K c maxiter = inl o -> o_success o = true ->
    forall p, In p (k_pts c) -> fin (o_x o p) /\ fin (o_jac o p).
  Proof.
    intros SP n o H Su p I. destruct (run_inv K c n o H) as (s & h & Rs & Fi & E & Cv).
    destruct (conv_finite K fin L c s h (Cv Su)) as [U _].
    rewrite E. split; [exact (U p I)|]. apply (l_opp_fin K fin L). exact (SP _ U p I).
  Qed.

  (** If the last step was not a mixing step, all heights were numbers. *)
  Theorem C85_heights : spreads fin c -> forall maxiter o, frun K c maxiter = inl o -> o_success o = true ->
    o_str o <> FMix -> forall p, surface c p -> fin (k_h c p) /\ fin (o_offset o).
  Proof.
    intros SP n o H Su ST p Sp. destruct (run_inv K c n o H) as (s & h & Rs & Fi & E & Cv).
    rewrite E in ST. cbn [fresult fsecond o_str w_state z_str] in ST.
    assert (M : fmix (y_str h) = false).
    { unfold fnew_str in ST. destruct (fmix (y_str h)); [congruence|reflexivity]. }
    apply surf_comp in Sp. destruct Sp as [I Cp].
    pose proof (conv_gap K fin L c SP s h Fi (Cv Su) M p I Cp) as G.
    pose proof (cg_first K c s h Fi M) as Eh. subst h.
    destruct (gap_parts K fin L c s p G) as (_ & G2 & G3). rewrite E. auto.
  Qed.
  Theorem C85_elastic_heights : spreads fin c -> k_hard c = None -> forall maxiter o,
    frun K c maxiter = inl o -> o_success o = true ->
    forall p, surface c p -> fin (k_h c p) /\ fin (o_offset o).
  Proof.
    intros SP EL n o H Su. apply (C85_heights SP n o H Su).
    destruct (run_inv K c n o H) as (s & h & Rs & Fi & E & _). rewrite E.
    cbn [fresult fsecond o_str w_state z_str]. unfold ffirst in Fi. rewrite EL in Fi. injection Fi as <-.
    unfold fnew_str. rewrite cg_half_eq. cbn [y_str]. destruct (z_str s); cbn [fmix]; destruct (fany_nc _ _ _); discriminate.
  Qed.

  (** ** Forces *)
  (** No force on masked points. *)
  Theorem C85_outside : spreads fin c -> hard_pos K c -> forall maxiter o, frun K c maxiter = inl o ->
    o_success o = true -> forall p, In p (k_pts c) -> ~ surface c p -> aeq K (o_jac o p) (a0 K) = true.
  Proof.
    intros SP HP n o H Su p I Sp. destruct (run_inv K c n o H) as (s & h & Rs & Fi & E & Cv).
    destruct (conv_finite K fin L c s h (Cv Su)) as [U _].
    assert (Cp : fcomp c p = false).
    { destruct (fcomp c p) eqn:Q; [exfalso; apply Sp, surf_comp; auto|reflexivity]. }
    assert (Z : zl K (fnew_force K c h p)).
    { apply (pad_force K fin L c h HP p Cp). apply (pad_first K fin L c s h HP); [|exact Fi|exact Cp].
      apply (reach_pad K fin L c HP s Rs). }
    rewrite E. cbn [fresult fsecond o_jac w_state z_f]. apply (l_zero_opp K fin L).
    destruct Z as [Z|Z]; [exact Z|]. exfalso. apply (l_fin_nan K fin L _ (SP _ U p I) Z).
  Qed.

  (** No tension, and with a given offset no pressure above the hardness, unless the
      contact area changed in the last step. *)
  Theorem C85_pressure : hard_pos K c -> load_pos K c -> forall maxiter o, frun K c maxiter = inl o ->
    o_str o <> FSd -> forall p,
    alt K (o_jac o p) (a0 K) = false
    /\ (forall H, k_hard c = Some H -> k_ext c = None -> alt K H (o_jac o p) = false).
  Proof.
    intros HP LP n o H ST p. destruct (run_inv K c n o H) as (s & h & Rs & Fi & E & _).
    rewrite E in *. cbn [fresult fsecond o_str o_jac w_state z_f z_str] in *. split.
    - apply (l_opp_pos K fin L). apply (force_sign K fin L c h p LP HP ST).
    - intros Hd Q X. rewrite (l_opp_lt K fin L). apply (force_hard K fin L c h p Hd Q X (HP Hd Q) ST).
  Qed.

  (** ** Penetration *)
  (** Points in contact: [h + offset - u] is below the tolerance. *)
  Theorem C85_penetration : forall maxiter o, frun K c maxiter = inl o ->
    o_success o = true -> o_str o <> FMix ->
    (forall p, surface c p -> fin (asub K (aadd K (k_h c p) (o_offset o)) (o_x o p))) ->
    forall p, surface c p -> o_active o p = true ->
    alt K (asub K (aadd K (k_h c p) (o_offset o)) (o_x o p)) (k_pentol c) = true.
  Proof.
    intros n o H Su ST Fin p Sp A. destruct (run_inv K c n o H) as (s & h & Rs & Fi & E & Cv).
    specialize (Cv Su). rewrite E in *. cbn [fresult fsecond o_str o_offset o_x o_active w_state w_half z_u z_off z_str] in *.
    assert (M : fmix (fnew_str K c h) = false) by (destruct (fnew_str K c h); congruence || reflexivity).
    rewrite M, andb_false_r in A.
    apply (conv_pen K fin L c s h Cv); [|exact Fin|exact Sp|exact A].
    unfold fnew_str in ST. destruct (fmix (y_str h)); [congruence|reflexivity].
  Qed.
  (** Points without force, given offset: they did not overlap at the displacements
      before the last step, and those differ by less than the tolerance. *)
  Theorem C85_free : hard_pos K c -> k_ext c = None -> forall maxiter o, frun K c maxiter = inl o ->
    o_success o = true -> o_str o = FCg ->
    exists u, forall p, surface c p ->
      alt K (aabs K (asub K (o_x o p) (u p))) (k_pentol c) = true
      /\ (aeq K (o_full o p) (a0 K) = true ->
          alt K (asub K (asub K (u p) (k_h c p)) (o_offset o)) (a0 K) = false).
  Proof.
    intros HP X n o H Su ST. destruct (run_inv K c n o H) as (s & h & Rs & Fi & E & Cv).
    specialize (Cv Su). exists (z_u s). intros p Sp. rewrite E in *.
    cbn [fresult fsecond o_str o_offset o_x o_full w_state z_u z_f z_off z_str] in *.
    assert (M : fmix (y_str h) = false) by (unfold fnew_str in ST; destruct (fmix (y_str h)); [discriminate|reflexivity]).
    split.
    - apply (conv_du K fin L c s h Cv). apply Sp.
    - intro Z. pose proof (free_gap K fin L c HP X h ST p Sp Z) as G.
      pose proof (cg_first K c s h Fi M) as Eh. subst h. exact G.
  Qed.
  (** The reported constraint violations are below the tolerances. *)
  Theorem C85_maxcv : forall maxiter o, frun K c maxiter = inl o -> o_success o = true ->
    alt K (o_maxpres o) (k_forcetol c) = true
    /\ (o_str o <> FMix -> alt K (o_maxpen o) (k_pentol c) = true).
  Proof.
    intros n o H Su. destruct (run_inv K c n o H) as (s & h & Rs & Fi & E & Cv).
    destruct (conv_parts K c s h (Cv Su)) as (_ & Q & _ & Q'). rewrite E.
    split; [exact Q|]. cbn [fresult fsecond o_str w_state z_str]. intro ST. apply Q'.
    unfold fnew_str in ST. destruct (fmix (y_str h)); [congruence|reflexivity].
  Qed.
  (** A prescribed load is met: [(total - load) / total] is below the tolerance. *)
  Theorem C85_load : forall maxiter o Fx, k_ext c = Some Fx -> frun K c maxiter = inl o -> o_success o = true ->
    alt K (aabs K (adiv K (asub K (aopp K (asum K (map (o_full o)
              (filter (fun p => k_slice c p && negb (k_masked c p)) (k_pts c))))) Fx)
            (aopp K (asum K (map (o_full o)
              (filter (fun p => k_slice c p && negb (k_masked c p)) (k_pts c))))))) (k_thermotol c) = true.
  Proof.
    intros n o Fx X H Su. destruct (run_inv K c n o H) as (s & h & Rs & Fi & E & Cv).
    specialize (Cv Su). rewrite E. unfold fsecond in Cv. cbv zeta in Cv. cbn [w_conv] in Cv. rewrite X in Cv.
    apply andb_prop in Cv. destruct Cv as [Cv _]. apply andb_prop in Cv. destruct Cv as [Cv _]. exact Cv.
  Qed.

  (** ** Undefined input *)
  (** Without a hardness, a height, offset or initial displacement that is infinite or
      undefined, or an undefined initial force, always ends in the exception
      once three iterations are allowed. *)
  Theorem C85_elastic_nan : k_hard c = None -> spreads_nan K c ->
    forall p, surface c p ->
    (~ fin (k_h c p))
    \/ (k_ext c = None /\ ~ fin (k_offset c))
    \/ (exists u, k_f0 c = None /\ k_u0 c = Some u /\ is_nan K (u p))
    \/ (exists f q, k_f0 c = Some f /\ In q (k_pts c) /\ is_nan K (f q)) ->
    forall maxiter, 3 <= maxiter -> frun K c maxiter = inr NanEncountered.
  Proof.
    intros EL SN p Sp B n Hn. destruct n as [|[|[|n]]]; try lia.
    apply surf_comp in Sp. destruct Sp as [I Cp].
    apply (el_nan K fin L c EL SN p I Cp). intro G. apply (gap_parts K fin L) in G.
    destruct G as (G1 & G2 & G3). destruct B as [B|[[X B]|[(u & F0 & U0 & B)|(f & q & F0 & J & B)]]].
    - exact (B G2).
    - apply B. unfold q_off in G3. rewrite X in G3. exact G3.
    - unfold fstart in G1. cbv zeta in G1. cbn [z_u] in G1. rewrite F0, U0, Cp in G1.
      rewrite (lt_nan_l K fin L _ _ B) in G1. exact (l_fin_nan K fin L _ G1 B).
    - unfold fstart in G1. cbv zeta in G1. cbn [z_u] in G1. rewrite F0 in G1.
      exact (l_fin_nan K fin L _ G1 (SN f q p J I B)).
  Qed.
  (** No other exception without a hardness. *)
  Theorem C85_elastic_exn : k_hard c = None -> forall maxiter e, 1 <= maxiter ->
    frun K c maxiter = inr e -> e = NanEncountered.
  Proof.
    intros EL n e Hn H. destruct (el_exn K c EL n _ None e H) as [Q|(Q & _)]; [exact Q|lia].
  Qed.

  (** ** Which points a step moves *)
  (** A step other than a mixing step counts as touching the points that were
      under compression before it, except those at the hardness: they flow. *)
  Theorem C85_active : forall n o1 o2, frun K c n = inl o1 -> o_success o1 = false ->
    frun K c (S n) = inl o2 -> o_str o2 <> FMix -> o_nit o2 = S (o_nit o1) /\ forall p,
      o_active o2 p = alt K (o_full o1 p) (a0 K)
        && match k_hard c with None => true | Some H => alt K (aopp K H) (o_full o1 p) end.
  Proof.
    intros n o1 o2 H1 Su H2 ST. unfold frun in *.
    destruct (loop_more K c n _ None o1 ltac:(discriminate) H1 Su) as (w & E1 & E2).
    rewrite E2 in H2. destruct (loop_one K c _ _ _ H2) as (h & Eh & Eo).
    split. { rewrite Eo, E1. reflexivity. }
    intro p. rewrite Eo in ST |- *. rewrite (active_cg K c _ _ h Eh ST), E1.
    unfold fcg, fresult. cbv zeta. cbn [o_full]. destruct (k_hard c); [reflexivity|]. symmetry. apply andb_true_r.
  Qed.
  (** The first step does so with the forces given. *)
  Theorem C85_active_first : forall o f, k_f0 c = Some f -> frun K c 1 = inl o -> o_str o <> FMix ->
    forall p, surface c p ->
      o_active o p = alt K (f p) (a0 K)
        && match k_hard c with None => true | Some H => alt K (aopp K H) (f p) end.
  Proof.
    intros o f E0 H ST p Sp. unfold frun in H. destruct (loop_one K c _ _ _ H) as (h & Eh & Eo).
    rewrite Eo in ST |- *. rewrite (active_cg K c _ _ h Eh ST).
    apply surf_comp in Sp. destruct Sp as [_ Cp].
    unfold fcg, fstart. cbv zeta. cbn [z_f]. unfold fpad. rewrite Cp, E0. cbn [negb].
    destruct (k_hard c); [reflexivity|]. symmetry. apply andb_true_r.
  Qed.
End C85.

Theorem C85_binary64 : laws A64 fin64.
Proof. exact binary64_laws. Qed.

(** The hypotheses on the substrate hold for multiplication by a matrix. *)
Theorem C85_matrix : forall (F P : Type) (K : Arith F) (fin : F -> Prop) (c : fcfg (F:=F) (P:=P)) mat,
  laws K fin -> by_matrix K c mat -> spreads fin c /\ spreads_nan K c.
Proof.
  intros F P K fin c mat L B. split; [exact (matrix_spreads K fin L c mat B)|exact (matrix_spreads_nan K fin L c mat B)].
Qed.

(** With a hardness the claim about undefined heights is false: mixing treats a point
    whose height is not a number as a point without contact and reports success. *)
Theorem C85_plastic_nan_refuted :
  ~ (forall (c : fcfg (F:=F64) (P:=bool)) mat maxiter o, by_matrix A64 c mat -> hard_pos A64 c ->
       frun A64 c maxiter = inl o -> o_success o = true -> forall p, surface c p -> fin64 (k_h c p)).
Proof.
  intro H.
  destruct (show_inl _ _ _ _ _ _ _ pl_hole64_run) as (o & E & A & _).
  assert (Su : o_success o = true) by congruence.
  apply (H pl_hole64 mat_disp 4 o (matrix64 _ _ _ _ _)) with (p := false) in E; [exact E| |exact Su|].
  - intros Hd Q. injection Q as <-. reflexivity.
  - split; [right; left; reflexivity|split; reflexivity].
Qed.

Print Assumptions C85_result.
Print Assumptions C85_finite.
Print Assumptions C85_heights.
Print Assumptions C85_elastic_heights.
Print Assumptions C85_outside.
Print Assumptions C85_pressure.
Print Assumptions C85_penetration.
Print Assumptions C85_free.
Print Assumptions C85_maxcv.
Print Assumptions C85_load.
Print Assumptions C85_elastic_nan.
Print Assumptions C85_elastic_exn.
Print Assumptions C85_active.
Print Assumptions C85_active_first.
Print Assumptions C85_binary64.
Print Assumptions C85_matrix.
Print Assumptions C85_plastic_nan_refuted.

(** Runs in binary64: elastic with a given offset and with a given load, plastic; they
    succeed with one point in contact, and meet the hypotheses. *)
Example C85_nonvacuous :
  (exists o, frun A64 el64 4 = inl o /\ o_success o = true /\ o_str o = FCg /\ o_nit o = 3 /\ o_nfev o = 7
    /\ alt A64 (a0 A64) (o_jac o true) = true /\ o_active o true = true
    /\ aeq A64 (o_full o false) (a0 A64) = true
    /\ forall p, surface el64 p -> fin64 (asub A64 (aadd A64 (k_h el64 p) (o_offset o)) (o_x o p)))
  /\ (exists o, frun A64 load64 4 = inl o /\ o_success o = true /\ o_str o = FCg
    /\ o_jac o true = f64_of 1 (-2) /\ o_offset o = f64_of (-1) (-2))
  /\ (exists o, frun A64 pl64 4 = inl o /\ o_success o = true /\ o_str o = FMix
    /\ o_jac o true = f64_of 1 (-10))
  /\ hard_pos A64 pl64 /\ load_pos A64 load64 /\ spreads fin64 pl64 /\ spreads fin64 el64 /\ surface el64 true.
Proof.
  split; [|split; [|split; [|split; [|split; [|split; [|split]]]]]].
  - destruct (show_inl _ _ _ _ _ _ _ el64_run) as (o & E & A & X1 & X2 & F1 & F2 & J1 & J2 & C1 & C2 & O).
    exists o. split; [exact E|]. injection A as A1 A2 A3 A4. rewrite A1, A2, A3, A4, J1, C1, F2.
    repeat (split; [reflexivity|]). intros [|] _; [rewrite X1|rewrite X2]; rewrite O; vm_compute; exact I.
  - destruct (show_inl _ _ _ _ _ _ _ load64_run) as (o & E & A & X1 & X2 & F1 & F2 & J1 & J2 & C1 & C2 & O).
    exists o. split; [exact E|]. injection A as A1 A2 A3 A4. rewrite A1, A2, J1, O.
    repeat (split; [reflexivity|]). reflexivity.
  - destruct (show_inl _ _ _ _ _ _ _ pl64_run) as (o & E & A & X1 & X2 & F1 & F2 & J1 & J2 & C1 & C2 & O).
    exists o. split; [exact E|]. injection A as A1 A2 A3 A4. rewrite A1, A2, J1.
    repeat (split; [reflexivity|]). reflexivity.
  - intros Hd Q. injection Q as <-. reflexivity.
  - intros Fx Q. injection Q as <-. reflexivity.
  - apply (C85_matrix _ _ A64 fin64 pl64 mat_disp binary64_laws). apply matrix64.
  - apply (C85_matrix _ _ A64 fin64 el64 mat_disp binary64_laws). apply matrix64.
  - split; [left; reflexivity|split; reflexivity].
Qed.

(** An undefined height: three iterations raise, one and two do not. *)
Example C85_nan_nonvacuous :
  frun A64 el_hole64 3 = inr NanEncountered
  /\ (exists o, frun A64 el_hole64 2 = inl o /\ o_success o = false /\ o_x o true = S754_nan)
  /\ surface el_hole64 false /\ ~ fin64 (k_h el_hole64 false) /\ spreads_nan A64 el_hole64.
Proof.
  destruct el_hole64_run as [R2 R3]. split; [|split; [|split; [|split]]].
  - destruct (frun A64 el_hole64 3) as [o|e]; [discriminate|]. injection R3 as ->. reflexivity.
  - destruct (show_inl _ _ _ _ _ _ _ R2) as (o & E & A & X1 & _). exists o.
    split; [exact E|split; [congruence|exact X1]].
  - split; [right; left; reflexivity|split; reflexivity].
  - intro H. exact H.
  - apply (C85_matrix _ _ A64 fin64 el_hole64 mat_disp binary64_laws). apply matrix64.
Qed.

(** A point at the hardness flows while the other one moves; and two steps in a row. *)
Example C85_active_nonvacuous :
  (exists o f, k_f0 flow64 = Some f /\ frun A64 flow64 1 = inl o /\ o_str o <> FMix
    /\ o_active o true = false /\ o_active o false = true /\ alt A64 (f true) (a0 A64) = true
    /\ surface flow64 true /\ surface flow64 false)
  /\ (exists o1 o2, frun A64 el64 1 = inl o1 /\ o_success o1 = false /\ frun A64 el64 2 = inl o2 /\ o_str o2 <> FMix
    /\ o_active o2 true = true /\ o_active o2 false = false).
Proof.
  split.
  - destruct (show_inl _ _ _ _ _ _ _ flow64_run) as (o & E & A & X1 & X2 & F1 & F2 & J1 & J2 & C1 & C2 & O).
    injection A as A1 A2 A3 A4. eexists o, _. split; [reflexivity|]. split; [exact E|]. split; [congruence|].
    rewrite C1, C2. repeat (split; [reflexivity|]).
    split; (split; [|split; reflexivity]); [left|right; left]; reflexivity.
  - destruct el64_two as [R1 R2].
    destruct (show_inl _ _ _ _ _ _ _ R1) as (o1 & E1 & A & _).
    destruct (show_inl _ _ _ _ _ _ _ R2) as (o2 & E2 & B & X1 & X2 & F1 & F2 & J1 & J2 & C1 & C2 & O).
    exists o1, o2. split; [exact E1|]. split; [congruence|]. split; [exact E2|]. split; [congruence|].
    rewrite C1, C2. split; reflexivity.
Qed.
