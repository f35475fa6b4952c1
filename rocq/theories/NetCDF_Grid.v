(** * Proofs on partial grids *)
From Coq Require Import Reals ZArith Lia Lra List Arith Bool String Ascii.
From Verif Require Import Py Logger_Model Logger_Read NetCDF_Model NetCDF_Spec NetCDF_Proofs NetCDF_Session
  NetCDF_Cursor NetCDF_Open_Model NetCDF_Open_Spec.
Import ListNotations.
Local Open Scope Z_scope.

Definition coversb (B : block) (a b : nat) : bool :=
  ((b_x0 B <=? a) && (a <? b_x0 B + b_nx B) && (b_y0 B <=? b) && (b <? b_y0 B + b_ny B))%nat.
Lemma coversb_spec : forall B a b, coversb B a b = true <-> covers B a b.
Proof.
  intros B a b. unfold coversb, covers. rewrite !andb_true_iff, !Nat.leb_le, !Nat.ltb_lt. tauto.
Qed.

Lemma overlay_length : forall NX NY x0 y0 nx ny new old, List.length (overlay NX NY x0 y0 nx ny new old) = (NX * NY)%nat.
Proof. intros. unfold overlay. rewrite map_length, seq_length. reflexivity. Qed.
Lemma overlay_nth : forall NX NY B new old a b, (a < NX)%nat -> (b < NY)%nat ->
  List.length new = (b_nx B * b_ny B)%nat -> List.length old = (NX * NY)%nat ->
  nth_error (overlay NX NY (b_x0 B) (b_y0 B) (b_nx B) (b_ny B) new old) (a * NY + b)
  = if coversb B a b then nth_error new ((a - b_x0 B) * b_ny B + (b - b_y0 B)) else nth_error old (a * NY + b).
Proof.
  intros NX NY B new old a b Ha Hb LN LO. unfold overlay.
  assert (P : (a * NY + b < NX * NY)%nat) by nia.
  assert (DV : ((a * NY + b) / NY)%nat = a) by (rewrite Nat.div_add_l by lia; rewrite (Nat.div_small b NY) by exact Hb; lia).
  assert (MD : ((a * NY + b) mod NY)%nat = b) by (rewrite Nat.add_comm, Nat.mod_add by lia; apply Nat.mod_small; exact Hb).
  etransitivity; [apply map_nth_error|].
  { rewrite (nth_error_nth' _ 0%nat) by (rewrite seq_length; exact P). rewrite seq_nth by exact P. reflexivity. }
  cbv zeta. cbn [Nat.add]. rewrite DV, MD. fold (coversb B a b). destruct (coversb B a b) eqn:C.
  - symmetry. apply nth_error_nth'. apply coversb_spec in C. destruct C as [[C1 C2] [C3 C4]]. rewrite LN. nia.
  - symmetry. apply nth_error_nth'. rewrite LO. exact P.
Qed.

Section Grid.
  Variable ov : Z -> R.
  Variable subnormal : R -> R.
  Variables NX NY : nat.
  Variable name : string.
  Hypothesis PR : private name = Ret false.
  Notation store := (store ov subnormal).
  Notation set_grid := (set_grid ov subnormal).
  Notation set_grids := (set_grids ov subnormal).

  Definition ready (t : dtype) (c : container) : Prop :=
    two_dimensional c NX NY /\ type_in_use c name t /\ shape_in_use c name [NX; NY].

  Lemma cim_in_use : forall v t c, type_in_use c name t -> create_if_missing name v c = Ret c.
  Proof.
    intros v t c (d & x & D & A & _). unfold create_if_missing, data. rewrite D. cbn [bind]. rewrite A. reflexivity.
  Qed.

  Lemma grid_step : forall t i B c, ready t c -> 0 <= i -> inside NX NY B -> whole NX NY i name c ->
    exists c' l, set_grid i name [b_nx B; b_ny B] (b_values B) (b_x0 B) (b_y0 B) c = (c', Ret tt)
      /\ ready t c' /\ get_frame i name c' = Ret (Some ([NX; NY], l)) /\ List.length l = (NX * NY)%nat
      /\ forall a b, (a < NX)%nat -> (b < NY)%nat ->
         nth_error l (a * NY + b)
         = if coversb B a b then option_map (store t) (value_at B a b) else point NY i name t c a b.
  Proof.
    intros t i B c (T & TU & SU) I0 (B1 & B2 & B3 & B4 & BL) WH.
    pose proof T as (T1 & T2 & T3 & T4 & d & n & D & F & X & Y).
    destruct TU as (d0 & x & D0 & A & TY). assert (d0 = d) by congruence. subst d0. clear D0.
    destruct SU as (d0 & x0 & D0 & A0 & FR & SH). assert (d0 = d) by congruence. subst d0. clear D0.
    assert (x0 = x) by congruence. subst x0. clear A0.
    set (old := match (if (Z.to_nat i <? n)%nat then v_data x (Z.to_nat i) else None) with Some l0 => l0 | None => repeat (fill (v_type x)) (NX * NY) end).
    set (new := overlay NX NY (b_x0 B) (b_y0 B) (b_nx B) (b_ny B) (map (store (v_type x)) (b_values B)) old).
    set (x' := mkVar (v_type x) true [NX; NY] (fun j => if Nat.eqb j (Z.to_nat i) then Some new else v_data x j)).
    set (d' := mkData (d_dims d) (Some (Nat.max n (S (Z.to_nat i)))) (update name x' (d_vars d)) (d_attrs d)).
    assert (SG : set_grid i name [b_nx B; b_ny B] (b_values B) (b_x0 B) (b_y0 B) c = (with_data d' c, Ret tt)).
    { unfold NetCDF_Model.set_grid, shape_of. rewrite T3. cbn [bind].
      rewrite (cim_in_use _ t) by (exists d, x; auto). destruct (Z.ltb_spec i 0); [lia|].
      unfold writable, data. rewrite T1, D. cbn [bind]. unfold put_grid. rewrite A, F, FR, SH.
      replace ((b_x0 B + b_nx B <=? NX) && (b_y0 B + b_ny B <=? NY) && (0 <? b_nx B) && (0 <? b_ny B))%nat with true; [reflexivity|].
      symmetry. rewrite !andb_true_iff, !Nat.leb_le, !Nat.ltb_lt. auto. }
    assert (A' : assoc name (d_vars d') = Some x') by (unfold d'; cbn [d_vars]; apply assoc_update_same).
    exists (with_data d' c), new. split; [exact SG|].
    assert (LN : List.length new = (NX * NY)%nat) by apply overlay_length.
    assert (OLD : List.length old = (NX * NY)%nat /\ forall a b, (a < NX)%nat -> (b < NY)%nat ->
              nth_error old (a * NY + b) = point NY i name t c a b).
    { assert (G : get_frame i name c = if (Z.to_nat i <? n)%nat
          then Ret (option_map (fun l => ([NX; NY], l)) (v_data x (Z.to_nat i))) else Exc IndexError).
      { unfold get_frame, data. rewrite PR, D. cbn [bind]. rewrite A, F, FR, SH. cbv zeta.
        destruct (Z.ltb_spec i 0); [lia|]. destruct (Z.ltb_spec i 0); [lia|]. reflexivity. }
      unfold whole in WH. unfold point. rewrite G in *. unfold old.
      assert (RP : List.length (repeat (fill (v_type x)) (NX * NY)) = (NX * NY)%nat /\ forall a b, (a < NX)%nat -> (b < NY)%nat ->
          nth_error (repeat (fill (v_type x)) (NX * NY)) (a * NY + b) = Some (fill t)).
      { split; [apply repeat_length|]. intros a b Ha Hb. rewrite TY. rewrite (nth_error_nth' _ (fill t)) by (rewrite repeat_length; nia).
        rewrite nth_repeat. reflexivity. }
      destruct (Nat.ltb_spec (Z.to_nat i) n) as [L|L]; [|exact RP].
      destruct (v_data x (Z.to_nat i)) as [l0|] eqn:V; cbn [option_map] in *; [|exact RP].
      split; [eapply WH; reflexivity|]. intros. reflexivity. }
    destruct OLD as [OL ON]. split; [|split; [|split; [exact LN|]]].
    - split; [|split].
      + split; [exact T1|]. split; [exact T2|]. split; [exact T3|]. split; [exact T4|].
        exists d', (Nat.max n (S (Z.to_nat i))). split; [reflexivity|]. split; [reflexivity|]. split; [exact X|exact Y].
      + exists d', x'. split; [reflexivity|]. split; [exact A'|exact TY].
      + exists d', x'. split; [reflexivity|]. split; [exact A'|]. split; reflexivity.
    - unfold get_frame, data. rewrite PR. cbn [bind with_data c_data]. rewrite A'. unfold d'. cbn [d_frames]. unfold x'. cbn [v_framed v_shape v_data]. cbv zeta.
      destruct (Z.ltb_spec i 0); [lia|]. destruct (Z.ltb_spec i 0); [lia|].
      destruct (Nat.ltb_spec (Z.to_nat i) (Nat.max n (S (Z.to_nat i)))); [|lia]. rewrite Nat.eqb_refl. reflexivity.
    - intros a b Ha Hb. unfold new. rewrite overlay_nth; [|exact Ha|exact Hb|rewrite map_length; exact BL|exact OL].
      destruct (coversb B a b); [|apply ON; assumption]. unfold value_at. rewrite <- TY.
      destruct (nth_error (b_values B) ((a - b_x0 B) * b_ny B + (b - b_y0 B))) as [v|] eqn:V.
      + etransitivity; [apply map_nth_error; exact V|]. reflexivity.
      + apply nth_error_None. rewrite map_length. apply nth_error_None in V. exact V.
  Qed.

  (** Several blocks: the last one that covers a point counts. *)
  Lemma grids : forall t i Bs c, ready t c -> 0 <= i -> Forall (inside NX NY) Bs -> whole NX NY i name c ->
    exists c', set_grids i name Bs c = (c', Ret tt) /\ ready t c' /\ whole NX NY i name c'
      /\ (Bs <> [] -> exists l, get_frame i name c' = Ret (Some ([NX; NY], l)) /\ List.length l = (NX * NY)%nat)
      /\ forall a b, (a < NX)%nat -> (b < NY)%nat ->
         point NY i name t c' a b
         = match find (fun B => coversb B a b) (rev Bs) with
           | Some B => option_map (store t) (value_at B a b)
           | None => point NY i name t c a b
           end.
  Proof.
    intros t i. induction Bs as [|B Bs IH]; intros c RD I0 IN WH.
    - exists c. split; [reflexivity|]. split; [exact RD|]. split; [exact WH|]. split; [intro N; contradiction|]. intros. reflexivity.
    - inversion IN as [|? ? IB IBs]; subst.
      destruct (grid_step t i B c RD I0 IB WH) as (c1 & l & E & RD1 & G1 & L1 & V1).
      assert (WH1 : whole NX NY i name c1) by (intros sh l' G'; rewrite G1 in G'; injection G' as _ <-; exact L1).
      destruct (IH c1 RD1 I0 IBs WH1) as (c' & E' & RD' & WH' & GG & V').
      exists c'. cbn [NetCDF_Open_Spec.set_grids]. rewrite E. split; [exact E'|]. split; [exact RD'|]. split; [exact WH'|]. split.
      + intros _. destruct Bs as [|B2 Bs]; [|apply GG; discriminate]. cbn in E'. injection E' as <-. exists l. auto.
      + intros a b Ha Hb. rewrite (V' a b Ha Hb). cbn [rev].
        assert (FA : forall P : block -> bool, forall l1 x, find P (l1 ++ [x]) = match find P l1 with Some y => Some y | None => if P x then Some x else None end).
        { intros P l1 y. induction l1 as [|z l1 IHl]; cbn; [reflexivity|]. destruct (P z); [reflexivity|exact IHl]. }
        rewrite FA. destruct (find _ (rev Bs)) as [B'|]; [reflexivity|].
        unfold point at 1. rewrite G1, (V1 a b Ha Hb). destruct (coversb B a b); reflexivity.
  Qed.

  (** The first block creates the variable. *)
  Lemma grid_new : forall i B c, two_dimensional c NX NY -> unused c name ->
    exists c1, (forall l, create_if_missing name (PArr [NX; NY] l) c = Ret c1) /\ ready (float_type c) c1
      /\ get_frame i name c = Exc KeyErr
      /\ (forall l, get_frame i name c1 <> Ret (Some l))
      /\ c_shape c1 = c_shape c
      /\ set_grid i name [b_nx B; b_ny B] (b_values B) (b_x0 B) (b_y0 B) c
         = set_grid i name [b_nx B; b_ny B] (b_values B) (b_x0 B) (b_y0 B) c1.
  Proof.
    intros i B c T (d & D & UN). pose proof T as (T1 & T2 & T3 & T4 & d0 & n & D0 & F & X & Y).
    assert (d0 = d) by congruence. subst d0. clear D0.
    destruct (create_ok name (float_type c) ["nx"; "ny"]%string d n [NX; NY] F) as (d1 & CR & F1 & A1); [cbn [dim_sizes]; rewrite X, Y; reflexivity|exact UN|].
    assert (CI : forall l, create_if_missing name (PArr [NX; NY] l) c = Ret (with_data d1 c)).
    { intro l. unfold create_if_missing, data. rewrite D. cbn [bind]. rewrite UN. unfold writable, shape_of. rewrite T1, T3. cbn [bind].
      replace (andb (Nat.eqb (List.length [NX; NY]) (List.length [NX; NY])) (all_equal [NX; NY] [NX; NY])) with true
        by (unfold all_equal; cbn; rewrite !Nat.eqb_refl; reflexivity).
      cbn [List.length Nat.eqb]. rewrite CR. reflexivity. }
    assert (K : keeps (fun _ _ _ => False) (fun _ => False) d d1) by (eapply create_keeps; exact CR).
    assert (TU : type_in_use (with_data d1 c) name (float_type c)) by (eexists _, _; split; [reflexivity|]; split; [exact A1|reflexivity]).
    exists (with_data d1 c). split; [exact CI|]. split; [|split; [|split; [|split; [reflexivity|]]]].
    - split; [|split; [exact TU|]].
      + eapply two_goes; [|exact T]. eapply goes_data; [exact D|exact K|exact T1].
      + eexists _, _. split; [reflexivity|]. split; [exact A1|]. split; reflexivity.
    - unfold get_frame, data. rewrite PR, D. cbn [bind]. rewrite UN. reflexivity.
    - intros l. unfold get_frame, data. rewrite PR. cbn [bind with_data c_data]. rewrite A1, F1. cbn [v_framed v_data v_shape]. cbv zeta.
      destruct (_ <? 0); [discriminate|]. destruct (_ <? _)%nat; cbn [option_map]; discriminate.
    - unfold NetCDF_Model.set_grid, shape_of. rewrite T3. cbn [with_data c_shape]. rewrite T3. cbn [bind]. rewrite CI.
      rewrite (cim_in_use _ (float_type c) (with_data d1 c) TU). reflexivity.
  Qed.
End Grid.
