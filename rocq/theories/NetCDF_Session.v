(** * Sessions with a NetCDF container *)
From Coq Require Import Reals ZArith Lia Lra List Arith Bool String Ascii.
From Verif Require Import Py Logger_Model Logger_Read NetCDF_Model NetCDF_Spec NetCDF_Proofs.
Import ListNotations.
Local Open Scope Z_scope.

Lemma map_repeat : forall A B (f : A -> B) x n, map f (repeat x n) = repeat (f x) n.
Proof. intros A B f x n. induction n; cbn; [reflexivity|]. f_equal. exact IHn. Qed.

Section Session.
  Variable ov : Z -> R.
  Variable subnormal : R -> R.
  Notation set_frame := (set_frame ov subnormal).
  Notation put := (put ov subnormal).
  Notation store := (store ov subnormal).
  Notation step := (step ov subnormal).
  Notation session := (session ov subnormal).
  Notation stored := (stored ov subnormal).

  (** What an operation may write. *)
  Definition wset (o : op) : bool -> string -> nat -> Prop :=
    fun f s j =>
    match o with
    | SetFrame i name _ | SetGrid i name _ _ _ _ => f = true /\ s = name /\ 0 <= i /\ j = Z.to_nat i
    | SetRigid _ _ _ => f = false /\ s = "h"%string
    | SetElastic _ _ => f = false /\ s = "elastic_surface"%string
    | SetFile name (PArr (_ :: _) _) => f = false /\ s = name
    | _ => False
    end.
  Definition aset (o : op) : string -> Prop :=
    fun s => match o with
             | SetFile _ (PArr (_ :: _) _) => False
             | SetFile name _ => s = name
             | _ => False end.

  Definition Inv (F : dataset -> Prop) (st : container * disk) : Prop :=
    (forall d, c_data (fst st) = Some d -> F d)
    /\ ((c_writable (fst st) = false \/ c_data (fst st) = None) ->
        exists d, assoc (c_fn (fst st)) (snd st) = Some d /\ F d).

  Definition preserved (F : dataset -> Prop) (o : op) : Prop :=
    forall d d', keeps (wset o) (aset o) d d' -> F d -> F d'.

  Lemma inv_goes : forall F o c c' k, preserved F o -> goes (wset o) (aset o) c c' ->
    Inv F (c, k) -> Inv F (c', k).
  Proof.
    intros F o c c' k P (H1 & H2 & H3 & H4 & _) [I1 I2]. cbn [fst snd] in *. split; cbn [fst snd].
    - intros d' D'. rewrite D' in H4. destruct (c_data c) as [d|] eqn:D; [|contradiction].
      eapply P; [exact H4|]. apply I1. reflexivity.
    - rewrite H1, H2. intro C. apply I2. destruct C as [C|C]; [left; exact C|right].
      rewrite C in H4. destruct (c_data c); [contradiction|reflexivity].
  Qed.

  Lemma close_inv : forall F c k, Inv F (c, k) ->
    let (k', c') := close c k in
    Inv F (c', k') /\ c_data c' = None /\ c_fn c' = c_fn c /\ exists d, assoc (c_fn c) k' = Some d /\ F d.
  Proof.
    intros F c k [I1 I2]. cbn [fst snd] in *. unfold close. destruct (c_data c) as [d|] eqn:D.
    - assert (X : exists d0, assoc (c_fn c) (if c_writable c then update (c_fn c) d k else k) = Some d0 /\ F d0).
      { destruct (c_writable c); [|apply I2; left; reflexivity].
        exists d. split; [apply assoc_update_same|apply I1; reflexivity]. }
      split; [|auto]. split; cbn [fst snd c_data c_fn]; [discriminate|auto].
    - split; [|split; [exact D|split; [reflexivity|apply I2; auto]]].
      split; cbn [fst snd]; [rewrite D; discriminate|intros _; apply I2; auto].
  Qed.

  Lemma set_start_data : forall fr c c', set_start fr c = Ret c' ->
    c_data c' = c_data c /\ c_writable c' = c_writable c /\ c_fn c' = c_fn c
    /\ c_shape c' = c_shape c /\ c_shape2 c' = c_shape2 c /\ c_defined c' = c_defined c /\ c_double c' = c_double c.
  Proof.
    intros fr c c' H. unfold set_start in H. destruct (fr <? 0).
    - apply bindRet in H. destruct H as (n & _ & H). injection H as <-. cbn. auto 10.
    - injection H as <-. cbn. auto 10.
  Qed.

  (** Operations that do not touch the dataset. *)
  Definition idle (o : op) : bool :=
    match o with NextFrame | SetCursor _ | Sync | Close | Reopen _ _ _ => true | _ => false end.
  Lemma idle_inv : forall F o st, idle o = true -> Inv F st -> Inv F (step o st).
  Proof.
    intros F o [c k] ID I. destruct o; try discriminate; cbn [NetCDF_Spec.step].
    - unfold next_frame. destruct (frame_index _ _); exact I.
    - exact I.
    - destruct I as [I1 I2]. cbn [fst snd] in *. split; cbn [fst snd]; [exact I1|].
      unfold sync. destruct (c_data c) as [d|] eqn:D; cbn [fst]; [|intros _; apply I2; auto].
      destruct (c_writable c) eqn:WR; [intros [X|X]; discriminate|]. intros _. apply I2. auto.
    - pose proof (close_inv F c k I) as C. destruct (close c k) as [k' c']. apply C.
    - pose proof (close_inv F c k I) as C. destruct (close c k) as [k' c']. destruct C as (J & N & FN & d & A & FD).
      unfold open_container. destruct rw; rewrite A;
        (destruct (assoc "nx"%string (d_dims d)); [|exact J]); (destruct (assoc "ny"%string (d_dims d)); [|exact J]);
        (destruct (set_start _ _) as [c2|e] eqn:S; [|exact J]);
        apply set_start_data in S; destruct S as (S1 & S2 & S3 & _); split; cbn [fst snd];
        rewrite ?S1, ?S2, ?S3; cbn; try (intros d0 E; injection E as <-; exact FD);
        try (intros [X|X]; discriminate); intros _; exists d; auto.
  Qed.

  Lemma step_inv : forall F o st, preserved F o -> Inv F st -> Inv F (step o st).
  Proof.
    intros F o [c k] P I. destruct o; cbn [NetCDF_Spec.step].
    - eapply inv_goes; [exact P| |exact I]. apply goes_set_frame. intro. cbn. auto.
    - eapply inv_goes; [exact P| |exact I]. apply goes_set_grid. intro. cbn. auto.
    - eapply inv_goes; [exact P| |exact I]. apply goes_set_shape.
    - eapply inv_goes; [exact P| |exact I]. apply goes_set_rigid. cbn. auto.
    - eapply inv_goes; [exact P| |exact I]. apply goes_set_elastic. cbn. auto.
    - eapply inv_goes; [exact P| |exact I]. apply goes_set_file.
      + intros n sh l -> j. cbn. auto.
      + intro N. destruct v as [z|x|[|n sh] l|]; cbn; try reflexivity. exfalso. eapply N. reflexivity.
    - apply (idle_inv F NextFrame (c, k)); [reflexivity|exact I].
    - exact I.
    - apply (idle_inv F Sync (c, k)); [reflexivity|exact I].
    - apply (idle_inv F Close (c, k)); [reflexivity|exact I].
    - apply (idle_inv F (Reopen rw frame double) (c, k)); [reflexivity|exact I].
  Qed.

  Lemma session_inv : forall F os st, (forall o, In o os -> preserved F o) -> Inv F st -> Inv F (session os st).
  Proof.
    intros F os. induction os as [|o os IH]; intros st P I; [exact I|]. cbn [NetCDF_Spec.session].
    apply IH; [intros; apply P; right; assumption|]. apply step_inv; [apply P; left; reflexivity|exact I].
  Qed.

  (** ** Writing a frame *)
  Lemma flat_stored : forall v t shape l, flat v shape = Ret l ->
    stored t shape v = Some (shape, map (store t) l).
  Proof.
    intros v t shape l H. unfold flat, size in H. destruct v as [z|x|sh a|]; cbn [NetCDF_Spec.stored].
    - injection H as <-. rewrite map_repeat. reflexivity.
    - injection H as <-. rewrite map_repeat. reflexivity.
    - unfold same_shape in H. destruct (list_eq_dec Nat.eq_dec sh shape) as [->|N].
      + injection H as <-. destruct shape as [|n sh]; [|reflexivity]. destruct a as [|y [|? ?]]; reflexivity.
      + destruct sh as [|n sh]; [|discriminate]. destruct a as [|y [|? ?]]; try discriminate.
        injection H as <-. rewrite map_repeat. reflexivity.
    - discriminate.
  Qed.

  Lemma set_frame_ret : forall i name v c c',
    private name = Ret false -> set_frame i name v c = (c', Ret tt) ->
    0 <= i /\ c_writable c' = true /\ c_fn c' = c_fn c
    /\ exists d x n l, c_data c' = Some d /\ assoc name (d_vars d) = Some x /\ v_framed x = true
       /\ d_frames d = Some n /\ (Z.to_nat i < n)%nat
       /\ v_data x (Z.to_nat i) = Some (map (store (v_type x)) l) /\ flat v (v_shape x) = Ret l
       /\ (type_in_use c name (v_type x) \/ (unused c name /\ v_type x = first_type (c_double c) v
             /\ (match v with PInt _ | PReal _ | PArr [] _ => v_shape x = [] | _ => True end))).
  Proof.
    intros i name v c c' PR H. unfold NetCDF_Model.set_frame in H. rewrite PR in H.
    destruct (create_if_missing name v c) as [c1|e] eqn:C; [|discriminate].
    destruct (cim_spec (fun _ _ _ => True) (fun _ => True) name v c c1 C) as (G & _ & T & _).
    destruct (Z.ltb_spec i 0) as [L|L]; [discriminate|]. split; [exact L|].
    destruct (bind (writable c1) _) as [d'|e] eqn:P; [|discriminate]. injection H as <-.
    apply bindRet in P. destruct P as (u & WR & P). apply writable_ret in WR.
    apply bindRet in P. destruct P as (d1 & D1 & P). apply data_ret in D1.
    split; [exact WR|]. split; [apply G|]. unfold NetCDF_Model.put in P.
    destruct (assoc name (d_vars d1)) as [x|] eqn:E; [|discriminate].
    destruct (d_frames d1) as [n|] eqn:EF; [|discriminate].
    destruct (v_framed x) eqn:FR; [|discriminate]. apply bindRet in P. destruct P as (l & FL & P). injection P as <-.
    eexists _, _, _, l. split; [reflexivity|]. cbn [d_vars d_frames]. rewrite assoc_update_same.
    split; [reflexivity|]. cbn [v_framed v_data v_type v_shape]. rewrite Nat.eqb_refl.
    split; [reflexivity|]. split; [reflexivity|]. split; [lia|]. split; [reflexivity|]. split; [exact FL|].
    destruct T as [(t & TU & ->)|(U & TU)].
    - left. destruct TU as (d0 & x0 & A1 & A2 & A3). rewrite D1 in A1. injection A1 as <-. exists d1, x. auto.
    - right. split; [exact U|]. destruct TU as (d0 & x0 & A1 & A2 & A3). rewrite D1 in A1. injection A1 as <-.
      rewrite E in A2. injection A2 as <-. split; [exact A3|].
      destruct U as (dd & DD & AN). unfold create_if_missing, data in C. rewrite DD in C. cbn [bind] in C.
      rewrite AN in C. apply bindRet in C. destruct C as (u' & _ & C). apply bindRet in C. destruct C as (d2 & CR & C).
      injection C as <-. cbn [with_data c_data] in D1. injection D1 as <-.
      assert (SH : create name (first_type (c_double c) v) true [] dd = Ret d2 -> v_shape x = []).
      { unfold create. destruct (andb true _); [discriminate|]. cbn. intro Q. injection Q as <-. cbn [d_vars] in E.
        rewrite assoc_app_none in E by exact AN. cbn in E. rewrite String.eqb_refl in E. injection E as <-. reflexivity. }
      destruct v as [z|y|[|m sh] a|]; try exact I; apply SH; exact CR.
  Qed.

  (** The fact that frame [i] of [name] holds [l]. *)
  Definition holds (name : string) (i : nat) (t : dtype) (shape : list nat) (l : list R) (d : dataset) : Prop :=
    (exists n, d_frames d = Some n /\ (i < n)%nat)
    /\ exists x, assoc name (d_vars d) = Some x /\ v_framed x = true /\ v_type x = t /\ v_shape x = shape
         /\ v_data x i = Some l.
  Lemma holds_preserved : forall name i t shape l o, ~ wset o true name i -> preserved (holds name i t shape l) o.
  Proof.
    intros name i t shape l o N d d' (_ & K2 & K3 & _) [(n & A & B) (x & C & D & E & F & G)].
    split; [destruct (K2 n A) as (n' & A' & B'); exists n'; split; [exact A'|lia]|].
    destruct (K3 name x C) as (x' & C' & T' & F' & S' & D'). exists x'. repeat (split; [congruence|]).
    rewrite D'; [exact G|]. rewrite D. exact N.
  Qed.

  Lemma get_holds : forall name i t shape l c d, private name = Ret false -> 0 <= i -> c_data c = Some d ->
    holds name (Z.to_nat i) t shape l d -> get_frame i name c = Ret (Some (shape, l)).
  Proof.
    intros name i t shape l c d PR Z D [(n & A & B) (x & C & F & E & S & G)].
    unfold get_frame. rewrite PR. cbn [bind]. unfold data. rewrite D. cbn [bind]. rewrite C, A, F.
    destruct (Z.ltb_spec i 0) as [L|L]; [lia|]. cbv zeta. destruct (Z.ltb_spec i 0); [lia|].
    apply Nat.ltb_lt in B. rewrite B, G. cbn. rewrite S. reflexivity.
  Qed.

  Lemma read_back : forall i name v c c' k, private name = Ret false -> set_frame i name v c = (c', Ret tt) ->
    exists t shape,
      (type_in_use c name t \/ (unused c name /\ t = first_type (c_double c) v
          /\ match v with PInt _ | PReal _ | PArr [] _ => shape = [] | _ => True end))
      /\ (forall n sh l, v = PArr (n :: sh) l -> shape = n :: sh)
      /\ forall os, (forall v', ~ In (SetFrame i name v') os) ->
         (forall sh l x0 y0, ~ In (SetGrid i name sh l x0 y0) os) ->
         is_open (fst (session os (c', k))) ->
         get_frame i name (fst (session os (c', k))) = Ret (stored t shape v).
  Proof.
    intros i name v c c' k PR H.
    destruct (set_frame_ret i name v c c' PR H) as (I0 & WR & FN & d & x & n & l & D & A & FR & EF & LT & VD & FL & T).
    exists (v_type x), (v_shape x). split.
    { destruct T as [T|(U & T & S)]; [left; exact T|right; auto]. }
    split.
    { intros m sh a ->. unfold flat in FL. unfold same_shape in FL. destruct (list_eq_dec _ _ _) as [<-|N]; [reflexivity|discriminate]. }
    intros os NI NG OP. rewrite (flat_stored v (v_type x) (v_shape x) l FL).
    assert (I : Inv (holds name (Z.to_nat i) (v_type x) (v_shape x) (map (store (v_type x)) l)) (c', k)).
    { split; cbn [fst snd].
      - intros d0 D0. rewrite D in D0. injection D0 as <-. split; [exists n; auto|exists x; auto 10].
      - intros [X|X]; congruence. }
    assert (J : Inv (holds name (Z.to_nat i) (v_type x) (v_shape x) (map (store (v_type x)) l)) (session os (c', k))).
    { apply session_inv; [|exact I]. intros o IN. apply holds_preserved. intro W.
      destruct o; cbn in W; try contradiction; try (destruct W as [W _]; discriminate).
      - destruct W as (_ & <- & J0 & E). apply Z2Nat.inj in E; [|assumption|assumption]. subst i0. exact (NI _ IN).
      - destruct W as (_ & <- & J0 & E). apply Z2Nat.inj in E; [|assumption|assumption]. subst i0. exact (NG _ _ _ _ IN).
      - destruct v0 as [|?|[|? ?] ?|]; try contradiction. destruct W as [W _]. discriminate. }
    unfold is_open in OP. destruct (c_data (fst (session os (c', k)))) as [d2|] eqn:D2; [|contradiction].
    eapply get_holds; [exact PR|exact I0|exact D2|]. apply (proj1 J). exact D2.
  Qed.

  (** ** Whole-file arrays and attributes *)
  Definition fixed (name : string) (shape : list nat) (l : list R) (d : dataset) : Prop :=
    exists x, assoc name (d_vars d) = Some x /\ v_framed x = false /\ v_shape x = shape /\ v_data x 0%nat = Some l.
  Lemma fixed_preserved : forall name shape l o, ~ wset o false name 0 -> preserved (fixed name shape l) o.
  Proof.
    intros name shape l o N d d' (_ & _ & K3 & _) (x & A & F & S & D).
    destruct (K3 name x A) as (x' & A' & T' & F' & S' & D'). exists x'. repeat (split; [congruence|]).
    rewrite D'; [exact D|]. rewrite F. exact N.
  Qed.
  Lemma put_fixed_ret : forall name sh l d d', put_fixed name sh l d = Ret d' -> fixed name sh l d'.
  Proof.
    intros name sh l d d' H. unfold put_fixed in H. destruct (assoc name (d_vars d)) as [x|] eqn:E; [|discriminate].
    destruct (v_framed x) eqn:F; [discriminate|]. unfold same_shape in H.
    destruct (list_eq_dec _ _ _) as [<-|N]; [|discriminate]. injection H as <-.
    eexists. cbn [d_vars]. rewrite assoc_update_same. split; [reflexivity|]. cbn. auto.
  Qed.
  Lemma fixed_session : forall name shape l c k d os, c_writable c = true -> c_data c = Some d -> fixed name shape l d ->
    (forall o, In o os -> ~ wset o false name 0) ->
    is_open (fst (session os (c, k))) ->
    get_file name (fst (session os (c, k))) = Ret (FileArray (Some (shape, l))).
  Proof.
    intros name shape l c k d os WR D F N OP.
    assert (J : Inv (fixed name shape l) (session os (c, k))).
    { apply session_inv; [intros o IN; apply fixed_preserved; apply N; exact IN|].
      split; cbn [fst snd]; [intros d0 D0; congruence|intros [X|X]; congruence]. }
    unfold is_open in OP. destruct (c_data (fst (session os (c, k)))) as [d2|] eqn:D2; [|contradiction].
    destruct (proj1 J d2 D2) as (x & A & FR & S & VD).
    unfold get_file, data. rewrite D2. cbn [bind]. rewrite A, FR, VD, <- S. reflexivity.
  Qed.

  Lemma set_rigid_ret : forall sh l n c c', set_rigid sh l n c = (c', Ret tt) ->
    c_writable c' = true /\ exists d, c_data c' = Some d /\ fixed "h"%string sh l d.
  Proof.
    intros sh l n c c' H. unfold set_rigid in H. destruct (set_shape sh n c) as [c1 [u|e]]; [|discriminate].
    destruct (bind (shape2_of c1) _) as [d'|e] eqn:P; [|discriminate]. injection H as <-.
    apply bindRet in P. destruct P as (s2 & _ & P).
    destruct sh as [|hnx [|hny [|? ?]]]; try discriminate.
    apply bindRet in P. destruct P as (d & D & P).
    apply bindRet in P. destruct P as (u' & WR & P). apply writable_ret in WR. cbv zeta in P.
    apply bindRet in P. destruct P as (d2 & CR & P). split; [exact WR|]. exists d'. split; [reflexivity|].
    eapply put_fixed_ret; exact P.
  Qed.
  Lemma set_elastic_ret : forall sh l c c', set_elastic sh l c = (c', Ret tt) ->
    c_writable c' = true /\ exists d, c_data c' = Some d /\ fixed "elastic_surface"%string sh l d.
  Proof.
    intros sh l c c' H. unfold set_elastic in H. destruct (bind (data c) _) as [d'|e] eqn:P; [|discriminate]. injection H as <-.
    apply bindRet in P. destruct P as (d & D & P).
    apply bindRet in P. destruct P as (u' & WR & P). apply writable_ret in WR.
    apply bindRet in P. destruct P as (d2 & CR & P). split; [exact WR|]. exists d'. split; [reflexivity|].
    eapply put_fixed_ret; exact P.
  Qed.
  Lemma set_file_ret : forall name n sh l c c', set_file name (PArr (n :: sh) l) c = (c', Ret tt) ->
    c_writable c' = true /\ exists d, c_data c' = Some d /\ fixed name (n :: sh) l d.
  Proof.
    intros name n sh l c c' H. unfold set_file in H. cbv zeta in H.
    destruct (bind (data c) _) as [d'|e] eqn:P; [|discriminate]. injection H as <-.
    apply bindRet in P. destruct P as (d & D & P).
    apply bindRet in P. destruct P as (u' & WR & P). apply writable_ret in WR.
    apply bindRet in P. destruct P as (d2 & CR & P). split; [exact WR|]. exists d'. split; [reflexivity|].
    eapply put_fixed_ret; exact P.
  Qed.

  Definition has_attr (name : string) (v : value) (d : dataset) : Prop := assoc name (d_attrs d) = Some v.
  Lemma attr_session : forall name v c c' k os, (forall n sh l, v <> PArr (n :: sh) l) ->
    set_file name v c = (c', Ret tt) -> (forall v', ~ In (SetFile name v') os) ->
    is_open (fst (session os (c', k))) -> unused (fst (session os (c', k))) name ->
    get_file name (fst (session os (c', k))) = Ret (Attribute v).
  Proof.
    intros name v c c' k os NA H NI OP UN.
    assert (A : c_writable c' = true /\ exists d, c_data c' = Some d /\ has_attr name v d).
    { unfold set_file in H. cbv zeta in H.
      assert (X : match bind (data c) (fun d => bind (writable c) (fun _ =>
                Ret (mkData (d_dims d) (d_frames d) (d_vars d) (update name v (d_attrs d))))) with
              | Ret d' => (with_data d' c, Ret tt)
              | Exc e => (c, Exc e) end = (c', Ret tt)).
      { destruct v as [z|x|[|n sh] l|]; try exact H. exfalso. eapply NA. reflexivity. }
      clear H. destruct (bind (data c) _) as [d'|e] eqn:P; [|discriminate]. injection X as <-.
      apply bindRet in P. destruct P as (d & D & P).
      apply bindRet in P. destruct P as (u' & WR & P). apply writable_ret in WR. injection P as <-.
      split; [exact WR|]. eexists. split; [reflexivity|]. unfold has_attr. cbn. apply assoc_update_same. }
    destruct A as (WR & d & D & A).
    assert (J : Inv (has_attr name v) (session os (c', k))).
    { apply session_inv.
      - intros o IN d1 d2 (_ & _ & _ & K) HA. apply K; [|exact HA]. intro AS. destruct o; cbn in AS; try contradiction.
        assert (name0 = name) by (destruct v0 as [|?|[|? ?] ?|]; congruence || contradiction). subst name0. exact (NI _ IN).
      - split; cbn [fst snd]; [intros d0 D0; congruence|intros [X|X]; congruence]. }
    destruct UN as (d2 & D2 & UN). unfold get_file, data. rewrite D2. cbn [bind]. rewrite UN.
    rewrite (proj1 J d2 D2). reflexivity.
  Qed.

  (** ** Number of frames *)
  Definition frames_of (st : container * disk) (n : nat) : Prop :=
    Inv (fun d => d_frames d = Some n) st.

  Lemma keep_frames_inv : forall n c c' k, c_fn c' = c_fn c -> c_writable c' = c_writable c ->
    (forall d', c_data c' = Some d' -> exists d, c_data c = Some d /\ (d_frames d = Some n -> d_frames d' = Some n)) ->
    (c_data c' = None -> c_data c = None) ->
    frames_of (c, k) n -> frames_of (c', k) n.
  Proof.
    intros n c c' k F W H N [I1 I2]. cbn [fst snd] in *. split; cbn [fst snd].
    - intros d' D'. destruct (H d' D') as (d & D & K). apply K, I1, D.
    - rewrite F, W. intros [X|X]; apply I2; auto.
  Qed.

  Lemma create_frames : forall name t f dims d d', create name t f dims d = Ret d' -> d_frames d' = d_frames d.
  Proof.
    intros name t f dims d d' H. unfold create in H. destruct (andb f _); [discriminate|].
    apply bindRet in H. destruct H as (sh & _ & H). injection H as <-. reflexivity.
  Qed.
  Lemma put_fixed_frames : forall name sh l d d', put_fixed name sh l d = Ret d' -> d_frames d' = d_frames d.
  Proof.
    intros name sh l d d' H. unfold put_fixed in H. destruct (assoc name (d_vars d)) as [x|]; [|discriminate].
    destruct (v_framed x); [discriminate|]. destruct (same_shape _ _); [|discriminate]. injection H as <-. reflexivity.
  Qed.
  Lemma create_fixed_frames : forall name dims d d', create_fixed name dims d = Ret d' -> d_frames d' = d_frames d.
  Proof.
    intros name dims d d' H. unfold create_fixed in H. destruct (assoc _ _); [injection H as <-; reflexivity|].
    eapply create_frames; exact H.
  Qed.
  Lemma add_dim_frames : forall s n d, d_frames (add_dim s n d) = d_frames d.
  Proof. intros s n d. unfold add_dim. destruct (assoc _ _); reflexivity. Qed.
  Lemma add_frames_frames : forall n d, d_frames d = Some n -> d_frames (add_frames d) = Some n.
  Proof. intros n d H. unfold add_frames. rewrite H. exact H. Qed.

  Definition same_frames (c c' : container) : Prop :=
    c_fn c' = c_fn c /\ c_writable c' = c_writable c
    /\ (forall d', c_data c' = Some d' -> exists d, c_data c = Some d /\ (forall n, d_frames d = Some n -> d_frames d' = Some n))
    /\ (c_data c' = None -> c_data c = None).
  Lemma same_frames_refl : forall c, same_frames c c.
  Proof. intro c. repeat split; auto. intros d D. exists d. auto. Qed.
  Lemma same_frames_data : forall c d d', c_data c = Some d -> d_frames d' = d_frames d -> same_frames c (with_data d' c).
  Proof.
    intros c d d' D E. repeat split; auto; cbn.
    - intros d0 H. injection H as <-. exists d. split; [exact D|]. intros n. congruence.
    - discriminate.
  Qed.
  Lemma same_frames_trans : forall a b c, same_frames a b -> same_frames b c -> same_frames a c.
  Proof.
    intros a b c (A1 & A2 & A3 & A4) (B1 & B2 & B3 & B4). split; [congruence|]. split; [congruence|]. split; [|auto].
    intros d' D'. destruct (B3 d' D') as (d & D & E). destruct (A3 d D) as (d0 & D0 & E0). exists d0. auto.
  Qed.
  Lemma same_frames_shape : forall sh n c, same_frames c (fst (set_shape sh n c)).
  Proof.
    intros sh n c. unfold set_shape. cbv zeta. destruct (c_defined c).
    - destruct (shape_of c); [|apply same_frames_refl]. destruct (all_equal _ _); apply same_frames_refl.
    - set (full := match n with None | Some 1%nat => sh | Some k => k :: sh end). clearbody full. unfold define. cbv zeta.
      assert (Z : forall s s2, same_frames c (mkCont (c_fn c) (c_data c) (c_writable c) (c_double c) (c_defined c) s s2 (c_cur c))).
      { intros s s2. repeat split; auto. cbn. intros d D. exists d. auto. }
      assert (Y : forall nx ny ndof, same_frames c (fst
        (match c_data c with
         | None => (mkCont (c_fn c) (c_data c) (c_writable c) (c_double c) (c_defined c) (Some full) (Some (nx, ny)) (c_cur c), Exc AttributeErr)
         | Some d => (mkCont (c_fn c) (Some (add_dim "ny"%string ny (add_dim "nx"%string nx
               (if (1 <? ndof)%nat then add_dim "ndof"%string ndof (add_frames d) else add_frames d))))
               (c_writable c) (c_double c) true (Some full) (Some (nx, ny)) (c_cur c), @Ret unit tt)
         end))).
      { intros nx ny ndof. destruct (c_data c) as [d|] eqn:D; cbn [fst]; [|exact (Z (Some full) (Some (nx, ny)))].
        repeat split; auto; cbn [c_data]; [|discriminate]. intros d0 H. injection H as <-. exists d. split; [exact D|].
        intros m H. rewrite !add_dim_frames. destruct (1 <? ndof)%nat; rewrite ?add_dim_frames; apply add_frames_frames; exact H. }
      destruct full as [|a [|b [|e [|? ?]]]]; try apply Z; apply Y.
  Qed.

  Definition frames_after (o : op) (c : container) (n : nat) : nat := fold_right Nat.max n (map S (wrote ov subnormal o c)).

  Lemma frames_step : forall o c k n, frames_of (c, k) n -> frames_of (step o (c, k)) (frames_after o c n).
  Proof.
    intros o c k n H.
    assert (SF : forall c', same_frames c c' -> frames_of (c', k) n).
    { intros c' (S1 & S2 & S3 & S4). eapply keep_frames_inv; [exact S1|exact S2| |exact S4|exact H].
      intros d' D'. destruct (S3 d' D') as (d & D & E). exists d. auto. }
    destruct o; unfold frames_after; cbn [NetCDF_Spec.step wrote map fold_right].
    - unfold NetCDF_Model.set_frame. destruct (private name) as [[|]|e]; [exact H| |exact H].
      destruct (create_if_missing name v c) as [c1|e] eqn:C; [|exact H].
      assert (S1 : same_frames c c1).
      { unfold create_if_missing in C. apply bindRet in C. destruct C as (d & D & C). apply data_ret in D.
        destruct (assoc name (d_vars d)); [injection C as <-; apply same_frames_refl|].
        apply bindRet in C. destruct C as (u & _ & C). apply bindRet in C. destruct C as (d' & CR & C). injection C as <-.
        destruct (create_value_keeps (fun _ _ _ => True) (fun _ => True) name v c d d' CR) as [_ [dims G]].
        eapply same_frames_data; [exact D|]. eapply create_frames; exact G. }
      destruct (Z.ltb_spec i 0); [exact (SF c1 S1)|].
      destruct (bind (writable c1) _) as [d'|e] eqn:P; cbn [fst snd]; [|exact (SF c1 S1)].
      apply bindRet in P. destruct P as (u & WR & P). apply writable_ret in WR.
      apply bindRet in P. destruct P as (d1 & D1 & P). apply data_ret in D1.
      pose proof (SF c1 S1) as [I1 I2]. cbn [fst snd] in *. specialize (I1 d1 D1).
      unfold NetCDF_Model.put in P. destruct (assoc name (d_vars d1)) as [x|] eqn:E; [|discriminate]. rewrite I1 in P.
      destruct (v_framed x); [|discriminate]. apply bindRet in P. destruct P as (l & _ & P). injection P as <-.
      split; cbn [fst snd with_data c_data c_writable map fold_right].
      + intros d0 HH. injection HH as <-. cbn [d_frames]. f_equal. apply Nat.max_comm.
      + intros [X|X]; congruence.
    - unfold set_grid. destruct (bind (shape_of c) _) as [c1|e] eqn:C0; [|exact H].
      apply bindRet in C0. destruct C0 as (sh0 & _ & C).
      assert (S1 : same_frames c c1).
      { unfold create_if_missing in C. apply bindRet in C. destruct C as (d & D & C). apply data_ret in D.
        destruct (assoc name (d_vars d)); [injection C as <-; apply same_frames_refl|].
        apply bindRet in C. destruct C as (u & _ & C). apply bindRet in C. destruct C as (d' & CR & C). injection C as <-.
        destruct (create_value_keeps (fun _ _ _ => True) (fun _ => True) name (PArr sh0 l) c d d' CR) as [_ [dims G]].
        eapply same_frames_data; [exact D|]. eapply create_frames; exact G. }
      destruct shape as [|nx [|ny [|? ?]]]; try exact (SF c1 S1).
      destruct (Z.ltb_spec i 0); [exact (SF c1 S1)|].
      destruct (bind (writable c1) _) as [d'|e] eqn:P; cbn [fst snd]; [|exact (SF c1 S1)].
      apply bindRet in P. destruct P as (u & WR & P). apply writable_ret in WR.
      apply bindRet in P. destruct P as (d1 & D1 & P). apply data_ret in D1.
      pose proof (SF c1 S1) as [I1 I2]. cbn [fst snd] in *. specialize (I1 d1 D1).
      unfold put_grid in P. destruct (assoc name (d_vars d1)) as [x|] eqn:E; [|discriminate]. rewrite I1 in P.
      destruct (v_framed x); [|discriminate]. destruct (v_shape x) as [|NX [|NY [|? ?]]]; try discriminate.
      destruct (_ && _)%bool; [|discriminate]. injection P as <-.
      split; cbn [fst snd with_data c_data c_writable map fold_right].
      + intros d0 HH. injection HH as <-. cbn [d_frames]. f_equal. apply Nat.max_comm.
      + intros [X|X]; congruence.
    - apply SF, same_frames_shape.
    - apply SF. unfold set_rigid. pose proof (same_frames_shape shape ndof c) as G.
      destruct (set_shape shape ndof c) as [c1 [u|e]]; cbn [fst] in G |- *; [|exact G].
      destruct (bind (shape2_of c1) _) as [d'|e] eqn:P; cbn [fst]; [|exact G].
      eapply same_frames_trans; [exact G|]. apply bindRet in P. destruct P as (s2 & _ & P).
      destruct shape as [|hnx [|hny [|? ?]]]; try discriminate.
      apply bindRet in P. destruct P as (d & D & P). apply data_ret in D.
      apply bindRet in P. destruct P as (u' & WR & P). cbv zeta in P.
      apply bindRet in P. destruct P as (d2 & CR & P). eapply same_frames_data; [exact D|].
      rewrite (put_fixed_frames _ _ _ _ _ P), (create_fixed_frames _ _ _ _ CR).
      destruct (andb _ _); [reflexivity|]. destruct (assoc _ _); [reflexivity|]. rewrite !add_dim_frames. reflexivity.
    - apply SF. unfold set_elastic. destruct (bind (data c) _) as [d'|e] eqn:P; cbn [fst]; [|apply same_frames_refl].
      apply bindRet in P. destruct P as (d & D & P). apply data_ret in D.
      apply bindRet in P. destruct P as (u' & WR & P).
      apply bindRet in P. destruct P as (d2 & CR & P). eapply same_frames_data; [exact D|].
      rewrite (put_fixed_frames _ _ _ _ _ P), (create_fixed_frames _ _ _ _ CR). reflexivity.
    - apply SF. unfold set_file. cbv zeta.
      assert (AT : same_frames c (fst (match bind (data c) (fun d => bind (writable c) (fun _ =>
           Ret (mkData (d_dims d) (d_frames d) (d_vars d) (update name v (d_attrs d))))) with
         | Ret d' => (with_data d' c, Ret tt) | Exc e => (c, Exc e) end))).
      { destruct (bind (data c) _) as [d'|e] eqn:P; cbn [fst]; [|apply same_frames_refl].
        apply bindRet in P. destruct P as (d & D & P). apply data_ret in D.
        apply bindRet in P. destruct P as (u' & WR & P). injection P as <-. eapply same_frames_data; [exact D|reflexivity]. }
      destruct v as [z|x|[|m sh] l|]; try exact AT.
      destruct (bind (data c) (fun d => bind (writable c) (fun _ => bind (match assoc name (d_vars d) with
        Some _ => Ret d | None => _ end) _))) as [d'|e] eqn:P; cbn [fst]; [|apply same_frames_refl].
      apply bindRet in P. destruct P as (d & D & P). apply data_ret in D.
      apply bindRet in P. destruct P as (u' & WR & P).
      apply bindRet in P. destruct P as (d2 & CR & P). eapply same_frames_data; [exact D|].
      rewrite (put_fixed_frames _ _ _ _ _ P). destruct (assoc name (d_vars d)); [injection CR as <-; reflexivity|].
      apply bindRet in CR. destruct CR as (s & _ & CR). destruct (andb _ _); [|discriminate].
      eapply create_frames; exact CR.
    - apply (idle_inv (fun d => d_frames d = Some n) NextFrame (c, k)); [reflexivity|exact H].
    - exact H.
    - apply (idle_inv (fun d => d_frames d = Some n) Sync (c, k)); [reflexivity|exact H].
    - apply (idle_inv (fun d => d_frames d = Some n) Close (c, k)); [reflexivity|exact H].
    - apply (idle_inv (fun d => d_frames d = Some n) (Reopen rw frame double) (c, k)); [reflexivity|exact H].
  Qed.
End Session.
