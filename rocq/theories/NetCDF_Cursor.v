(** * Length, cursor and successful writes *)
From Coq Require Import Reals ZArith Lia Lra List Arith Bool String Ascii.
From Verif Require Import Py Logger_Model Logger_Read NetCDF_Model NetCDF_Spec NetCDF_Proofs NetCDF_Session.
Import ListNotations.
Local Open Scope Z_scope.

Section Cursor.
  Variable ov : Z -> R.
  Variable subnormal : R -> R.
  Notation set_frame := (set_frame ov subnormal).
  Notation put := (put ov subnormal).
  Notation step := (step ov subnormal).
  Notation session := (session ov subnormal).
  Notation frames_written := (frames_written ov subnormal).

  (** ** Length *)
  Lemma max_app : forall a b n, fold_right Nat.max (fold_right Nat.max n a) b = fold_right Nat.max n (a ++ b).
  Proof.
    intros a b n. induction a as [|x a IH]; cbn; [reflexivity|]. rewrite <- IH. clear IH.
    generalize (fold_right Nat.max n a). intro m. induction b as [|y b IH]; cbn; [reflexivity|]. rewrite IH. lia.
  Qed.

  Lemma frames_session : forall os st n, frames_of st n ->
    frames_of (session os st) (fold_right Nat.max n (map S (frames_written os st))).
  Proof.
    induction os as [|o os IH]; intros [c k] n H; cbn [NetCDF_Spec.session NetCDF_Spec.frames_written map fold_right]; [exact H|].
    rewrite map_app, <- max_app. apply IH. apply (frames_step ov subnormal o c k n H).
  Qed.

  Lemma frames_length : forall st n, frames_of st n -> is_open (fst st) -> length_of (fst st) = Ret n.
  Proof.
    intros [c k] n [I1 _] O. cbn [fst snd] in *. unfold length_of, data. unfold is_open in O.
    destruct (c_data c) as [d|] eqn:D; [|contradiction]. cbn [bind]. rewrite (I1 d eq_refl). reflexivity.
  Qed.

  Lemma open_frames : forall fn fr db m k k' c n, open_container fn fr db m k = (k', Ret c) ->
    length_of c = Ret n -> frames_of (c, k') n.
  Proof.
    intros fn fr db m k k' c n H L. unfold length_of, data in L. destruct (c_data c) as [d|] eqn:D; [|discriminate].
    cbn [bind] in L. destruct (d_frames d) as [m0|] eqn:F; [|discriminate]. injection L as ->.
    split; cbn [fst snd]; [congruence|]. unfold open_container in H. destruct m.
    - destruct (assoc fn k) as [d0|] eqn:A; [|discriminate].
      destruct (assoc "nx"%string (d_dims d0)); [|discriminate]. destruct (assoc "ny"%string (d_dims d0)); [|discriminate].
      injection H as <- S. apply set_start_data in S. destruct S as (S1 & S2 & S3 & _). cbn in S1, S2, S3.
      intros _. exists d0. rewrite S3. split; [exact A|congruence].
    - injection H as <- S. apply set_start_data in S. destruct S as (S1 & S2 & S3 & _). cbn in S1, S2, S3.
      intros [X|X]; congruence.
    - destruct (assoc fn k) as [d0|] eqn:A; [|discriminate].
      destruct (assoc "nx"%string (d_dims d0)); [|discriminate]. destruct (assoc "ny"%string (d_dims d0)); [|discriminate].
      injection H as <- S. apply set_start_data in S. destruct S as (S1 & S2 & S3 & _). cbn in S1, S2, S3.
      intros [X|X]; congruence.
  Qed.

  (** ** New files *)
  Lemma new_file : forall fn db k nx ny, exists c0 k' c,
    open_container fn 0 db Write k = (k', Ret c0) /\ set_shape [nx; ny] None c0 = (c, Ret tt)
    /\ two_dimensional c nx ny /\ length_of c = Ret 0%nat /\ c_cur c = 0 /\ frames_of (c, k') 0
    /\ (forall name, unused c name) /\ c_double c = db.
  Proof.
    intros fn db k nx ny. eexists _, _, _. split; [reflexivity|]. split; [reflexivity|].
    split; [|split; [reflexivity|split; [reflexivity|split; [|split; [|reflexivity]]]]].
    - unfold two_dimensional. repeat (split; [reflexivity|]). eexists _, _. repeat (split; [reflexivity|]). reflexivity.
    - split; cbn; [intros d H; injection H as <-; reflexivity|intros [X|X]; discriminate].
    - intro name. eexists. split; reflexivity.
  Qed.

  (** ** Successful writes *)
  Lemma two_goes : forall W A c c' nx ny, goes W A c c' -> two_dimensional c nx ny -> two_dimensional c' nx ny.
  Proof.
    intros W A c c' nx ny (G1 & G2 & G3 & G4 & G5 & G6) (T1 & T2 & T3 & T4 & d & n & D & F & X & Y).
    destruct (G6 T2) as (D' & S1 & S2). rewrite D in G4. destruct (c_data c') as [d'|] eqn:E; [|contradiction].
    destruct G4 as (K1 & K2 & _). destruct (K2 n F) as (n' & F' & _).
    split; [congruence|]. split; [exact D'|]. split; [congruence|]. split; [congruence|].
    exists d', n'. repeat (split; [auto|]). auto.
  Qed.

  Lemma put_ok : forall name i v d x n, assoc name (d_vars d) = Some x -> d_frames d = Some n -> v_framed x = true ->
    (match v with PInt _ | PReal _ | PArr [] [_] => True | PArr sh _ => sh = v_shape x | POther => False end) ->
    exists d', put name i v d = Ret d'.
  Proof.
    intros name i v d x n A F FR V. unfold NetCDF_Model.put. rewrite A, F, FR.
    assert (L : exists l, flat v (v_shape x) = Ret l).
    { unfold flat. destruct v as [z|y|sh l|]; try (eexists; reflexivity); [|contradiction].
      unfold same_shape. destruct (list_eq_dec _ _ _) as [E|E]; [eexists; reflexivity|].
      destruct sh as [|m sh]; [|contradiction]. destruct l as [|y [|? ?]]; try contradiction. eexists; reflexivity. }
    destruct L as [l L]. rewrite L. cbn [bind]. eexists. reflexivity.
  Qed.

  Lemma create_ok : forall name t dims d n sh, d_frames d = Some n -> dim_sizes dims d = Ret sh ->
    assoc name (d_vars d) = None ->
    exists d', create name t true dims d = Ret d' /\ d_frames d' = Some n
      /\ assoc name (d_vars d') = Some (mkVar t true sh (fun _ => None)).
  Proof.
    intros name t dims d n sh F S A. unfold create. rewrite F, S. cbn [andb bind]. eexists. split; [reflexivity|].
    cbn [d_frames d_vars]. split; [reflexivity|]. rewrite assoc_app_none by exact A. cbn. rewrite String.eqb_refl. reflexivity.
  Qed.

  Lemma write_new : forall i name v c nx ny, two_dimensional c nx ny -> private name = Ret false -> 0 <= i ->
    unused c name -> fits nx ny v ->
    exists c', set_frame i name v c = (c', Ret tt) /\ two_dimensional c' nx ny.
  Proof.
    intros i name v c nx ny T PR I U V. pose proof T as (T1 & T2 & T3 & T4 & d & n & D & F & X & Y).
    destruct U as (d0 & D0 & UN). assert (d0 = d) by congruence. subst d0. clear D0.
    assert (C : exists d1 sh, create_if_missing name v c = Ret (with_data d1 c) /\ d_frames d1 = Some n
       /\ assoc name (d_vars d1) = Some (mkVar (first_type (c_double c) v) true sh (fun _ => None))
       /\ match v with PInt _ | PReal _ | PArr [] [_] => True | PArr s _ => s = sh | POther => False end).
    { assert (SC : exists d1, create name (first_type (c_double c) v) true [] d = Ret d1 /\ d_frames d1 = Some n
         /\ assoc name (d_vars d1) = Some (mkVar (first_type (c_double c) v) true [] (fun _ => None)))
        by (apply create_ok; auto).
      assert (GR : exists d1, create name (first_type (c_double c) v) true ["nx"; "ny"]%string d = Ret d1 /\ d_frames d1 = Some n
         /\ assoc name (d_vars d1) = Some (mkVar (first_type (c_double c) v) true [nx; ny] (fun _ => None))).
      { apply create_ok; auto. cbn [dim_sizes]. rewrite X, Y. reflexivity. }
      unfold create_if_missing, data. rewrite D. cbn [bind]. rewrite UN. unfold writable. rewrite T1. cbn [bind].
      destruct v as [z|y|[|m sh] l|]; cbn [fits] in V; [..|contradiction].
      - destruct SC as (d1 & E & F1 & A1). exists d1, []. cbn [first_type] in *. rewrite E. auto.
      - destruct SC as (d1 & E & F1 & A1). exists d1, []. cbn [first_type] in *. rewrite E. auto.
      - destruct SC as (d1 & E & F1 & A1). exists d1, []. cbn [first_type] in *. rewrite E.
        split; [reflexivity|]. split; [exact F1|]. split; [exact A1|]. destruct l as [|? [|? ?]]; exact I0 || auto.
      - rewrite V in *. destruct GR as (d1 & E & F1 & A1). exists d1, [nx; ny]. unfold shape_of. rewrite T3. cbn [bind].
        replace (andb (Nat.eqb (List.length [nx; ny]) (List.length [nx; ny])) (all_equal [nx; ny] [nx; ny])) with true
          by (unfold all_equal; cbn; rewrite !Nat.eqb_refl; reflexivity).
        cbn [List.length Nat.eqb]. cbn [first_type] in *. fold (float_type c) in E, A1. rewrite E. auto. }
    destruct C as (d1 & sh & C & F1 & A1 & V1).
    destruct (put_ok name (Z.to_nat i) v d1 _ n A1 F1 eq_refl V1) as [d2 P].
    assert (SF : set_frame i name v c = (with_data d2 (with_data d1 c), Ret tt)).
    { unfold NetCDF_Model.set_frame. rewrite PR, C. destruct (Z.ltb_spec i 0); [lia|].
      unfold writable, data. cbn [with_data c_writable c_data]. rewrite T1. cbn [bind]. rewrite P. reflexivity. }
    exists (with_data d2 (with_data d1 c)). split; [exact SF|].
    pose proof (goes_set_frame ov subnormal (fun _ _ _ => True) (fun _ => True) i name v c (fun _ => Logic.I)) as G.
    rewrite SF in G. eapply two_goes; [exact G|exact T].
  Qed.

  Lemma write_again : forall i name v c nx ny shape, two_dimensional c nx ny -> private name = Ret false -> 0 <= i ->
    shape_in_use c name shape ->
    (match v with PInt _ | PReal _ | PArr [] [_] => True | PArr sh _ => sh = shape | POther => False end) ->
    exists c', set_frame i name v c = (c', Ret tt) /\ two_dimensional c' nx ny.
  Proof.
    intros i name v c nx ny shape T PR I U V. pose proof T as (T1 & T2 & T3 & T4 & d & n & D & F & X & Y).
    destruct U as (d0 & x & D0 & A & FR & SH). assert (d0 = d) by congruence. subst d0 shape. clear D0.
    destruct (put_ok name (Z.to_nat i) v d x n A F FR V) as [d2 P].
    assert (SF : set_frame i name v c = (with_data d2 c, Ret tt)).
    { unfold NetCDF_Model.set_frame, create_if_missing, data. rewrite PR, D. cbn [bind]. rewrite A. destruct (Z.ltb_spec i 0); [lia|].
      unfold writable. rewrite T1. cbn [bind]. rewrite D. cbn [bind]. rewrite P. reflexivity. }
    exists (with_data d2 c). split; [exact SF|].
    pose proof (goes_set_frame ov subnormal (fun _ _ _ => True) (fun _ => True) i name v c (fun _ => Logic.I)) as G.
    rewrite SF in G. eapply two_goes; [exact G|exact T].
  Qed.

  Definition stays (o : op) : Prop := match o with Close => False | Reopen rw _ _ => rw = true | _ => True end.
  Lemma two_step : forall o st nx ny, stays o -> two_dimensional (fst st) nx ny -> two_dimensional (fst (step o st)) nx ny.
  Proof.
    intros o [c k] nx ny S T. cbn [fst] in T. destruct o; cbn [NetCDF_Spec.step fst].
    - eapply two_goes; [|exact T]. apply (goes_set_frame ov subnormal (fun _ _ _ => True) (fun _ => True)). auto.
    - eapply two_goes; [|exact T]. apply (goes_set_grid ov subnormal (fun _ _ _ => True) (fun _ => True)). auto.
    - eapply two_goes; [|exact T]. apply (goes_set_shape (fun _ _ _ => True) (fun _ => True)).
    - eapply two_goes; [|exact T]. apply (goes_set_rigid (fun _ _ _ => True) (fun _ => True)). auto.
    - eapply two_goes; [|exact T]. apply (goes_set_elastic (fun _ _ _ => True) (fun _ => True)). auto.
    - eapply two_goes; [|exact T]. apply (goes_set_file (fun _ _ _ => True) (fun _ => True)); auto.
    - unfold next_frame. destruct (frame_index _ _); exact T.
    - exact T.
    - exact T.
    - contradiction.
    - cbn in S. subst rw. destruct T as (T1 & T2 & T3 & T4 & d & n & D & F & X & Y).
      unfold close. rewrite D, T1. cbn. rewrite assoc_update_same, X, Y. unfold set_start.
      destruct (frame <? 0).
      + unfold length_of, data. cbn. rewrite F. cbn. unfold two_dimensional. cbn. repeat (split; [reflexivity|]).
        exists d, n. auto 10.
      + cbn. unfold two_dimensional. cbn. repeat (split; [reflexivity|]). exists d, n. auto 10.
  Qed.
  Lemma two_session : forall os st nx ny, (forall o, In o os -> stays o) -> two_dimensional (fst st) nx ny ->
    two_dimensional (fst (session os st)) nx ny.
  Proof.
    induction os as [|o os IH]; intros st nx ny S T; [exact T|]. cbn [NetCDF_Spec.session].
    apply IH; [intros; apply S; right; assumption|]. apply two_step; [apply S; left; reflexivity|exact T].
  Qed.

  (** ** Cursor *)
  Lemma next_frames_spec : forall k c, 0 <= c_cur c ->
    next_frames k c = (with_cur (c_cur c + Z.of_nat k) c, map (fun j => Ret (c_cur c + Z.of_nat j)) (seq 0 k)).
  Proof.
    induction k as [|k IH]; intros c H.
    - cbn. f_equal. rewrite Z.add_0_r. destruct c; reflexivity.
    - cbn [next_frames]. unfold next_frame, frame_index. destruct (Z.ltb_spec (c_cur c) 0); [lia|].
      rewrite IH by (cbn; lia). cbn [seq map with_cur c_cur]. f_equal.
      + unfold with_cur. cbn. f_equal. lia.
      + f_equal; [f_equal; cbn; lia|]. rewrite <- seq_shift, map_map. apply map_ext. intro j. f_equal. lia.
  Qed.

  Lemma append_spec : forall name xs c nx ny n k, two_dimensional c nx ny -> private name = Ret false ->
    (unused c name \/ (type_in_use c name F8 /\ shape_in_use c name [])) ->
    c_cur c = Z.of_nat n -> frames_of (c, k) n ->
    exists c', append_all ov subnormal name xs c = (c', Ret tt) /\ two_dimensional c' nx ny
      /\ goes (fun f s j => f = true /\ s = name /\ (n <= j)%nat) (fun _ => False) c c'
      /\ frames_of (c', k) (n + List.length xs) /\ c_cur c' = Z.of_nat (n + List.length xs)
      /\ forall j x, nth_error xs j = Some x -> get_frame (Z.of_nat (n + j)) name c' = Ret (Some ([], [x])).
  Proof.
    intros name. induction xs as [|x xs IH]; intros c nx ny n k T PR U CU FR; cbn [append_all List.length].
    - exists c. rewrite Nat.add_0_r. split; [reflexivity|]. split; [exact T|]. split; [apply goes_refl|]. split; [exact FR|]. split; [exact CU|]. intros [|j] x H; discriminate.
    - unfold next_frame, frame_index. rewrite CU. destruct (Z.ltb_spec (Z.of_nat n) 0); [lia|].
      set (c1 := with_cur (Z.of_nat n + 1) c).
      assert (T' : two_dimensional c1 nx ny) by exact T.
      assert (W : exists c2, set_frame (Z.of_nat n) name (PReal x) c1 = (c2, Ret tt) /\ two_dimensional c2 nx ny).
      { destruct U as [U|[_ U]].
        - apply write_new; auto; try lia. exact Logic.I.
        - apply write_again with (shape := @nil nat); auto; lia. }
      destruct W as (c2 & E & T2). rewrite E.
      destruct (set_frame_ret ov subnormal (Z.of_nat n) name (PReal x) c1 c2 PR E)
        as (_ & WR & FN & d & y & m & l & D & A & FRM & EF & LT & VD & FL & TY).
      rewrite Nat2Z.id in *.
      assert (TS : v_type y = F8 /\ v_shape y = []).
      { destruct U as [U|[U1 U2]].
        - destruct TY as [(d0 & x0 & Q1 & Q2 & _)|(_ & Q2 & Q3)]; [|split; [exact Q2|exact Q3]].
          destruct U as (d1 & R1 & R2). cbn [c1 with_cur c_data] in Q1. congruence.
        - assert (G : goes (fun _ _ _ => True) (fun _ => True) c1 c2).
          { pose proof (goes_set_frame ov subnormal (fun _ _ _ => True) (fun _ => True) (Z.of_nat n) name (PReal x) c1 (fun _ => Logic.I)) as G.
            rewrite E in G. exact G. }
          destruct U1 as (d0 & x0 & Q1 & Q2 & Q3). destruct U2 as (d1 & x1 & P1 & P2 & P3 & P4).
          assert (d1 = d0) by congruence. subst d1. assert (x1 = x0) by congruence. subst x1.
          destruct G as (_ & _ & _ & G & _). cbn [c1 with_cur c_data] in G. rewrite Q1, D in G. destruct G as (_ & _ & G & _).
          destruct (G name x0 Q2) as (x2 & R1 & R2 & R3 & R4 & _). rewrite A in R1. injection R1 as <-. split; congruence. }
      destruct TS as [TY8 SH0].
      assert (CUR2 : c_cur c2 = Z.of_nat (S n)).
      { clear - E. unfold NetCDF_Model.set_frame in E. destruct (private name) as [[|]|]; [|destruct (create_if_missing _ _ _) as [c3|] eqn:C|].
        - injection E as <-. unfold c1. cbn. lia.
        - destruct (cim_spec (fun _ _ _ => True) (fun _ => True) _ _ _ _ C) as (_ & _ & _ & CC).
          destruct (if Z.of_nat n <? 0 then _ else _); [|discriminate]. injection E as <-. cbn. rewrite CC. unfold c1. cbn. lia.
        - discriminate.
        - discriminate. }
      assert (FR2 : frames_of (c2, k) (S n)).
      { pose proof (frames_step ov subnormal (SetFrame (Z.of_nat n) name (PReal x)) c1 k n FR) as Q.
        unfold frames_after in Q. cbn [NetCDF_Spec.step wrote] in Q. rewrite PR, E in Q. cbn [fst snd map fold_right] in Q.
        rewrite Nat2Z.id in Q. replace (Nat.max (S n) n) with (S n) in Q by lia. exact Q. }
      destruct (IH c2 nx ny (S n) k T2 PR) as (c3 & E3 & T3 & G3 & F3 & C3 & R3).
      { right. split; [exists d, y; auto|exists d, y; auto]. }
      { exact CUR2. }
      { exact FR2. }
      exists c3. split; [exact E3|]. split; [exact T3|]. replace (n + S (List.length xs))%nat with (S n + List.length xs)%nat by lia.
      split.
      { eapply goes_trans.
        - pose proof (goes_set_frame ov subnormal (fun f s j => f = true /\ s = name /\ (n <= j)%nat) (fun _ => False)
             (Z.of_nat n) name (PReal x) c1) as G. rewrite E in G. rewrite Nat2Z.id in G. apply G. auto.
        - eapply goes_weaken; [| |exact G3]; [|auto]. cbn. intros f s j (? & ? & ?). repeat split; auto; lia. }
      split; [exact F3|]. split; [exact C3|]. intros [|j] z Hz.
      + cbn in Hz. injection Hz as <-. rewrite Nat.add_0_r. destruct T3 as (_ & _ & _ & _ & d3 & n3 & D3 & _).
        eapply get_holds; [exact PR|lia|exact D3|]. rewrite Nat2Z.id.
        destruct G3 as (_ & _ & _ & G3 & _). rewrite D, D3 in G3. destruct G3 as (_ & K2 & K3 & _).
        destruct (K2 m EF) as (m' & EF' & LE). destruct (K3 name y A) as (y' & A' & TY' & FR' & SH' & VD').
        split; [exists m'; split; [exact EF'|lia]|]. exists y'. split; [exact A'|]. split; [congruence|]. split; [exact TY'|].
        split; [congruence|]. rewrite VD' by lia. rewrite VD. rewrite SH0 in FL. injection FL as <-. rewrite TY8. reflexivity.
      + cbn in Hz. replace (n + S j)%nat with (S n + j)%nat by lia. apply R3. exact Hz.
  Qed.
End Cursor.
