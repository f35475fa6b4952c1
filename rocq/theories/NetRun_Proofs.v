(** * Proofs about the NetCDF file of a run *)
From Coq Require Import Reals ZArith Lia List Arith Bool String.
From Verif Require Import Py HalfSpace_Model NetCDF_Model NetCDF_Spec NetCDF_Proofs NetRun_Model NetRun_Spec.
Import ListNotations.
Local Open Scope Z_scope.

(** A file open for writing in double precision with [N] frames. *)
Definition ready (fn : string) (n m N : nat) (z : Z) (c : container) (d : dataset) : Prop :=
  c = mkCont fn (Some d) true true true (Some [n; m]) (Some (n, m)) z /\ d_frames d = Some N
  /\ assoc "nx"%string (d_dims d) = Some n /\ assoc "ny"%string (d_dims d) = Some m.
(** The frames of a name. *)
Definition column (d : dataset) (name : string) (sh : list nat) (vals : list (list R)) : Prop :=
  match vals with
  | [] => assoc name (d_vars d) = None
  | _ => exists x, assoc name (d_vars d) = Some x /\ v_type x = F8 /\ v_framed x = true /\ v_shape x = sh
         /\ forall i l, nth_error vals i = Some l -> v_data x i = Some l
  end.
Definition good_value (n m : nat) (v : value) (sh : list nat) (l : list R) : Prop :=
  (exists x, v = PReal x /\ sh = [] /\ l = [x]) \/ (v = PArr [n; m] l /\ sh = [n; m]).

Lemma all_equal_refl : forall n m, all_equal [n; m] [n; m] = true.
Proof. intros. cbn. rewrite !Nat.eqb_refl. reflexivity. Qed.
Lemma same_shape_refl : forall s, same_shape s s = true.
Proof. intros. unfold same_shape. destruct (list_eq_dec Nat.eq_dec s s); [reflexivity|contradiction]. Qed.

Section Proofs.
  Variable ov : Z -> R.
  Variable sub : R -> R.

  Lemma store_F8 : forall l, map (store ov sub F8) l = l.
  Proof. intros. transitivity (map (fun x => x) l); [reflexivity|apply map_id]. Qed.

  Lemma set_column : forall fn n m N z c d name v sh l vals, ready fn n m N z c d -> private name = Ret false ->
    good_value n m v sh l -> column d name sh vals ->
    exists c' d', set_frame ov sub (Z.of_nat (List.length vals)) name v c = (c', Ret tt)
      /\ ready fn n m (Nat.max N (S (List.length vals))) z c' d' /\ column d' name sh (vals ++ [l])
      /\ forall name' sh' vals', name' <> name -> column d name' sh' vals' -> column d' name' sh' vals'.
  Proof.
    intros fn n m N z c d name v sh l vals (-> & Fr & Nx & Ny) P G Cl.
    assert (K : forall dv x, assoc name dv = Some x -> v_type x = F8 -> v_framed x = true -> v_shape x = sh ->
      put ov sub name (List.length vals) v (mkData (d_dims d) (Some N) dv (d_attrs d))
      = Ret (mkData (d_dims d) (Some (Nat.max N (S (List.length vals))))
          (update name (mkVar F8 true sh (fun j => if Nat.eqb j (List.length vals) then Some l else v_data x j)) dv) (d_attrs d))).
    { intros dv x A T F Sh. unfold put. cbn [d_vars d_frames]. rewrite A, F, Sh, T.
      destruct G as [(y & -> & -> & ->)|[-> ->]].
      - cbn [flat size fold_right repeat bind]. reflexivity.
      - cbn [flat]. rewrite same_shape_refl. cbn [bind]. rewrite store_F8. reflexivity. }
    unfold set_frame. rewrite P.
    destruct vals as [|v0 vals].
    - cbn [column] in Cl.
      assert (Cm : create_if_missing name v (mkCont fn (Some d) true true true (Some [n; m]) (Some (n, m)) z)
        = Ret (mkCont fn (Some (mkData (d_dims d) (d_frames d) (d_vars d ++ [(name, mkVar F8 true sh (fun _ => None))]) (d_attrs d))) true true true (Some [n; m]) (Some (n, m)) z)).
      { unfold create_if_missing, data. cbn [c_data bind]. rewrite Cl. unfold writable. cbn [c_writable bind].
        destruct G as [(y & -> & -> & ->)|[-> ->]].
        - unfold create. rewrite Fr. reflexivity.
        - unfold shape_of. cbn [c_shape bind]. rewrite all_equal_refl. cbn [List.length Nat.eqb andb].
          unfold create. rewrite Fr. cbn [andb dim_sizes]. rewrite Nx, Ny. reflexivity. }
      rewrite Cm. change (Z.of_nat (List.length (@nil (list R)))) with 0. change (0 <? 0) with false. cbn iota.
      unfold writable, data. cbn [c_writable c_data bind]. change (Z.to_nat 0) with (List.length (@nil (list R))). rewrite Fr.
      rewrite (K _ (mkVar F8 true sh (fun _ => None)));
        [|rewrite assoc_app_none by exact Cl; cbn [assoc]; rewrite String.eqb_refl; reflexivity|reflexivity..].
      do 2 eexists. split; [reflexivity|]. split; [split; [reflexivity|cbn [d_frames d_dims]; auto]|]. split.
      + cbn [app column d_vars]. eexists. split; [apply assoc_update_same|]. cbn [v_type v_framed v_shape v_data].
        split; [reflexivity|]. split; [reflexivity|]. split; [reflexivity|]. intros [|[|i]] l0 H; cbn in H; try discriminate. injection H as <-. reflexivity.
      + intros name' sh' vals' Ne C'. unfold column in *. cbn [d_vars].
        rewrite assoc_update_other by exact Ne. destruct vals'.
        * rewrite assoc_app_none by exact C'. cbn [assoc]. destruct (String.eqb_spec name' name); [contradiction|reflexivity].
        * destruct C' as (x & A & B). exists x. split; [apply assoc_app_some; exact A|exact B].
    - cbn [column] in Cl. destruct Cl as (x & A & T & F & Sh & V).
      unfold create_if_missing, data. cbn [c_data bind]. rewrite A.
      set (j := List.length (v0 :: vals)) in *. destruct (Z.ltb_spec (Z.of_nat j) 0) as [Q|_]; [lia|].
      unfold writable. cbn [c_writable c_data bind]. rewrite Nat2Z.id.
      assert (D : d = mkData (d_dims d) (Some N) (d_vars d) (d_attrs d)) by (destruct d; cbn in *; rewrite Fr; reflexivity).
      specialize (K _ x A T F Sh). rewrite <- D in K. rewrite K.
      do 2 eexists. split; [reflexivity|]. split; [split; [reflexivity|cbn [d_frames d_dims]; auto]|]. split.
      + cbn [app column d_vars]. eexists. split; [apply assoc_update_same|]. cbn [v_type v_framed v_shape v_data].
        split; [reflexivity|]. split; [reflexivity|]. split; [reflexivity|]. intros i l0 H.
        change (v0 :: vals ++ [l]) with ((v0 :: vals) ++ [l]) in H. destruct (Nat.eqb_spec i j) as [->|Ni].
        * rewrite nth_error_app2 in H by (unfold j; lia). replace (j - List.length (v0 :: vals))%nat with 0%nat in H by (unfold j; lia). injection H as ->. reflexivity.
        * apply V. rewrite nth_error_app1 in H; [exact H|]. assert (i < List.length ((v0 :: vals) ++ [l]))%nat by (apply nth_error_Some; congruence).
          rewrite app_length in H0. cbn [List.length] in H0 |- *. unfold j in Ni. cbn [List.length] in Ni. lia.
      + intros name' sh' vals' Ne C'. unfold column in *. cbn [d_vars].
        rewrite assoc_update_other by exact Ne. exact C'.
  Qed.

  (** *** Frames *)
  Definition fit (n m : nat) (x : arr * arr * R * R * R) : Prop :=
    let '(u, f, _, _, _) := x in a_shape u = [n; m] /\ a_shape f = [n; m].
  Definition col_u (x : arr * arr * R * R * R) : list R := let '(u, _, _, _, _) := x in entries_of u.
  Definition col_f (x : arr * arr * R * R * R) : list R := let '(_, f, _, _, _) := x in entries_of f.
  Definition col_d (x : arr * arr * R * R * R) : list R := let '(_, _, d, _, _) := x in [d].
  Definition col_l (x : arr * arr * R * R * R) : list R := let '(_, _, _, l, _) := x in [l].
  Definition col_a (x : arr * arr * R * R * R) : list R := let '(_, _, _, _, a) := x in [a].
  Definition columns (n m : nat) (l : list (arr * arr * R * R * R)) (d : dataset) : Prop :=
    column d "displacements" [n; m] (map col_u l) /\ column d "forces" [n; m] (map col_f l)
    /\ column d "displacement" [] (map col_d l) /\ column d "load" [] (map col_l l) /\ column d "area" [] (map col_a l).

  Lemma dump_nc_ok : forall fn n m L x c d, ready fn n m (List.length L) (Z.of_nat (List.length L)) c d -> columns n m L d -> fit n m x ->
    exists c' d', dump_nc ov sub x c = (c', Ret tt)
      /\ ready fn n m (List.length (L ++ [x])) (Z.of_nat (List.length (L ++ [x]))) c' d' /\ columns n m (L ++ [x]) d'.
  Proof.
    intros fn n m L [[[[u f] p] ld] ar] c d Rd (C1 & C2 & C3 & C4 & C5) [Su Sf]. unfold dump_nc, next_frame, frame_index.
    destruct Rd as (-> & Fr & Nx & Ny). cbn [c_cur].
    destruct (Z.ltb_spec (Z.of_nat (List.length L)) 0) as [Q|_]; [lia|]. cbn [with_cur c_fn c_data c_writable c_double c_defined c_shape c_shape2].
    set (z := Z.of_nat (List.length L) + 1).
    assert (R0 : ready fn n m (List.length L) z (mkCont fn (Some d) true true true (Some [n; m]) (Some (n, m)) z) d) by (split; auto).
    assert (G1 : good_value n m (as_value u) [n; m] (entries_of u)) by (right; unfold as_value; rewrite Su; auto).
    assert (G2 : good_value n m (as_value f) [n; m] (entries_of f)) by (right; unfold as_value; rewrite Sf; auto).
    assert (G : forall y, good_value n m (PReal y) [] [y]) by (intros; left; eauto).
    assert (Ln : forall (g : arr * arr * R * R * R -> list R), List.length (map g L) = List.length L) by (intros; apply map_length).
    cbn [assign]. match goal with |- context [with_cur z ?c0] => change (with_cur z c0) with (mkCont fn (Some d) true true true (Some [n; m]) (Some (n, m)) z) end.
    destruct (set_column _ _ _ _ _ _ _ "displacements"%string _ _ _ _ R0 eq_refl G1 C1) as (c1 & d1 & E1 & R1 & N1 & O1).
    rewrite Ln in E1, R1. rewrite E1. apply O1 in C2, C3, C4, C5; try discriminate. clear O1 R0 E1.
    destruct (set_column _ _ _ _ _ _ _ "forces"%string _ _ _ _ R1 eq_refl G2 C2) as (c2 & d2 & E2 & R2 & N2 & O2).
    rewrite Ln in E2, R2. rewrite E2. apply O2 in N1, C3, C4, C5; try discriminate. clear O2 R1 E2.
    destruct (set_column _ _ _ _ _ _ _ "displacement"%string _ _ _ _ R2 eq_refl (G p) C3) as (c3 & d3 & E3 & R3 & N3 & O3).
    rewrite Ln in E3, R3. rewrite E3. apply O3 in N1, N2, C4, C5; try discriminate. clear O3 R2 E3.
    destruct (set_column _ _ _ _ _ _ _ "load"%string _ _ _ _ R3 eq_refl (G ld) C4) as (c4 & d4 & E4 & R4 & N4 & O4).
    rewrite Ln in E4, R4. rewrite E4. apply O4 in N1, N2, N3, C5; try discriminate. clear O4 R3 E4.
    destruct (set_column _ _ _ _ _ _ _ "area"%string _ _ _ _ R4 eq_refl (G ar) C5) as (c5 & d5 & E5 & R5 & N5 & O5).
    rewrite Ln in E5, R5. rewrite E5. apply O5 in N1, N2, N3, N4; try discriminate. clear O5 R4 E5.
    exists c5, d5. split; [reflexivity|]. split.
    - rewrite app_length. cbn [List.length]. replace (Z.of_nat (List.length L + 1)) with z by (unfold z; lia).
      replace (List.length L + 1)%nat with (Nat.max (Nat.max (Nat.max (Nat.max (Nat.max (List.length L) (S (List.length L))) (S (List.length L))) (S (List.length L))) (S (List.length L))) (S (List.length L))) by lia.
      exact R5.
    - unfold columns. rewrite !map_app. repeat split; assumption.
  Qed.

  Lemma dump_all_ok : forall l fn n m L c d, ready fn n m (List.length L) (Z.of_nat (List.length L)) c d -> columns n m L d ->
    (forall x, In x l -> fit n m x) ->
    exists c' d', dump_all ov sub l c = (c', Ret tt)
      /\ ready fn n m (List.length (L ++ l)) (Z.of_nat (List.length (L ++ l))) c' d' /\ columns n m (L ++ l) d'.
  Proof.
    induction l as [|x l IH]; intros fn n m L c d Rd Cl F.
    - exists c, d. rewrite app_nil_r. auto.
    - destruct (dump_nc_ok fn n m L x c d Rd Cl (F x (or_introl eq_refl))) as (c1 & d1 & E & R1 & C1).
      destruct (IH fn n m (L ++ [x]) c1 d1 R1 C1 (fun y Y => F y (or_intror Y))) as (c2 & d2 & E2 & R2 & C2).
      exists c2, d2. cbn [dump_all]. rewrite E. rewrite <- app_assoc in *. auto.
  Qed.

  Lemma fill_ok : forall fn n m l k, (forall x, In x l -> fit n m x) ->
    exists k' c d, fill_file ov sub fn [n; m] l k = (k', Ret c) /\ ready fn n m (List.length l) (Z.of_nat (List.length l)) c d
      /\ columns n m l d /\ forall fn', fn' <> fn -> assoc fn' k' = assoc fn' k.
  Proof.
    intros fn n m l k F. unfold fill_file.
    set (d0 := mkData [("nx", n); ("ny", m)]%string (Some 0%nat) [] [("program", POther); ("programVersion", POther)]%string).
    assert (E0 : exists c, snd (open_container fn 0 true Write k) = Ret c
      /\ set_shape [n; m] None c = (mkCont fn (Some d0) true true true (Some [n; m]) (Some (n, m)) 0, Ret tt)) by (eexists; split; reflexivity).
    destruct E0 as (c0 & E0 & S0). destruct (open_container fn 0 true Write k) as [k1 r0] eqn:Op. cbn [snd] in E0. subst r0. rewrite S0.
    assert (R0 : ready fn n m (List.length (@nil (arr * arr * R * R * R))) (Z.of_nat 0) (mkCont fn (Some d0) true true true (Some [n; m]) (Some (n, m)) 0) d0)
      by (split; [reflexivity|repeat split]).
    assert (C0 : columns n m [] d0) by (repeat split).
    destruct (dump_all_ok l fn n m [] _ d0 R0 C0 F) as (c & d & E & Rd & Cl).
    rewrite E. do 3 eexists. split; [reflexivity|]. split; [exact Rd|]. split; [exact Cl|].
    intros fn' Ne. unfold open_container in Op. injection Op as <- _. apply assoc_update_other. exact Ne.
  Qed.

  (** *** Reading *)
  Lemma entries_nth : forall a n m x y, a_shape a = [n; m] -> (x < n)%nat -> (y < m)%nat ->
    nth_error (entries_of a) (x * m + y) = Some (a_val a x y).
  Proof.
    intros a n m x y Sh X Y. unfold entries_of. rewrite Sh. cbn [nth].
    assert (G : forall s k, (x < k)%nat -> nth_error (flat_map (fun i => map (a_val a i) (seq 0 m)) (seq s k)) (x * m + y) = Some (a_val a (s + x)%nat y)).
    { clear X Sh. induction x as [|x IH]; intros s k K; (destruct k as [|k]; [lia|]); cbn [seq flat_map].
      - rewrite nth_error_app1 by (rewrite map_length, seq_length; lia). cbn [Nat.mul Nat.add].
        rewrite nth_error_map, (nth_error_nth' _ 0%nat), seq_nth by (rewrite ?seq_length; lia). cbn. rewrite Nat.add_0_r. reflexivity.
      - rewrite nth_error_app2 by (rewrite map_length, seq_length; cbn; lia). rewrite map_length, seq_length.
        replace (S x * m + y - m)%nat with (x * m + y)%nat by (cbn; lia). rewrite IH by lia. do 2 f_equal. lia. }
    rewrite G by exact X. reflexivity.
  Qed.
  Lemma entries_length : forall a n m, a_shape a = [n; m] -> List.length (entries_of a) = (n * m)%nat.
  Proof.
    intros a n m Sh. unfold entries_of. rewrite Sh. cbn [nth]. clear Sh.
    assert (G : forall s, List.length (flat_map (fun i => map (a_val a i) (seq 0 m)) (seq s n)) = (n * m)%nat); [|apply G].
    induction n as [|n IH]; intros s; [reflexivity|].
    cbn [seq flat_map]. rewrite app_length, map_length, seq_length, IH. reflexivity.
  Qed.

  Lemma column_read : forall d c name sh vals N i l, c_data c = Some d -> d_frames d = Some N -> private name = Ret false ->
    column d name sh vals -> nth_error vals i = Some l -> (i < N)%nat -> get_frame (Z.of_nat i) name c = Ret (Some (sh, l)).
  Proof.
    intros d c name sh vals N i l D F P C H L. unfold get_frame. rewrite P. cbn [bind]. unfold data. rewrite D. cbn [bind].
    destruct vals as [|v vals]; [destruct i; discriminate|]. destruct C as (x & -> & _ & Fx & Sh & V). rewrite F, Fx.
    destruct (Z.ltb_spec (Z.of_nat i) 0); [lia|]. destruct (Z.ltb_spec (Z.of_nat i) 0); [lia|]. rewrite Nat2Z.id.
    destruct (Nat.ltb_spec i N); [|lia]. rewrite (V i l H), Sh. reflexivity.
  Qed.

  Lemma columns_hold : forall c d n m L i u f p l a, c_data c = Some d -> d_frames d = Some (List.length L) -> columns n m L d ->
    (forall x, In x L -> fit n m x) -> nth_error L i = Some (u, f, p, l, a) -> holds c n m (Z.of_nat i) u f p l a.
  Proof.
    intros c d n m L i u f p l a D F (C1 & C2 & C3 & C4 & C5) Ft H.
    assert (I : (i < List.length L)%nat) by (apply nth_error_Some; congruence).
    destruct (Ft _ (nth_error_In _ _ H)) as [Su Sf].
    split; [|split; [|split; [|split]]].
    - exists (entries_of u). split; [|split; [apply entries_length, Su|intros; apply (entries_nth _ n m); assumption]].
      eapply column_read; [exact D|exact F|reflexivity|exact C1| |exact I]. rewrite nth_error_map, H. reflexivity.
    - exists (entries_of f). split; [|split; [apply entries_length, Sf|intros; apply (entries_nth _ n m); assumption]].
      eapply column_read; [exact D|exact F|reflexivity|exact C2| |exact I]. rewrite nth_error_map, H. reflexivity.
    - eapply column_read; [exact D|exact F|reflexivity|exact C3| |exact I]. rewrite nth_error_map, H. reflexivity.
    - eapply column_read; [exact D|exact F|reflexivity|exact C4| |exact I]. rewrite nth_error_map, H. reflexivity.
    - eapply column_read; [exact D|exact F|reflexivity|exact C5| |exact I]. rewrite nth_error_map, H. reflexivity.
  Qed.

  Lemma write_ok : forall fn n m L k, (forall x, In x L -> fit n m x) ->
    exists k', write_file ov sub fn [n; m] L k = (k', Ret tt)
      /\ (forall fn', fn' <> fn -> assoc fn' k' = assoc fn' k)
      /\ forall db mode, mode <> Write -> exists c, open_container fn 0 db mode k' = (k', Ret c) /\ length_of c = Ret (List.length L)
         /\ forall i u f p l a, nth_error L i = Some (u, f, p, l, a) -> holds c n m (Z.of_nat i) u f p l a.
  Proof.
    intros fn n m L k F. destruct (fill_ok fn n m L k F) as (k1 & c & d & E & (-> & Fr & Nx & Ny) & Cl & Ot).
    unfold write_file. rewrite E. cbn [close c_data c_writable c_fn fst]. eexists. split; [reflexivity|]. split.
    { intros fn' Ne. rewrite assoc_update_other by exact Ne. apply Ot, Ne. }
    intros db mode Mo. destruct mode; [|contradiction|]; unfold open_container; rewrite assoc_update_same, Nx, Ny; eexists;
      (split; [reflexivity|]; split; [unfold length_of, data; cbn [with_cur c_data bind]; rewrite Fr; reflexivity|]);
      intros i u f p l a H; eapply columns_hold; try exact H; try eassumption; reflexivity.
  Qed.
End Proofs.
