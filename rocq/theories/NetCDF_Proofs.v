(** * Proofs about the NetCDF container *)
From Coq Require Import Reals ZArith Lia Lra List Arith Bool String Ascii.
From Verif Require Import Py Logger_Model Logger_Read NetCDF_Model NetCDF_Spec.
Import ListNotations.
Local Open Scope Z_scope.

(** ** Association lists *)
Lemma assoc_update_same : forall A k (a : A) l, assoc k (update k a l) = Some a.
Proof.
  intros A k a l. induction l as [|[k' b] l IH]; cbn; [rewrite String.eqb_refl; reflexivity|].
  destruct (String.eqb k k') eqn:E; cbn; [rewrite String.eqb_refl; reflexivity|]. rewrite E. exact IH.
Qed.
Lemma assoc_update_other : forall A k k' (a : A) l, k <> k' -> assoc k (update k' a l) = assoc k l.
Proof.
  intros A k k' a l N. induction l as [|[k0 b] l IH]; cbn.
  - apply String.eqb_neq in N. rewrite N. reflexivity.
  - destruct (String.eqb_spec k' k0).
    + subst k0. cbn. apply String.eqb_neq in N. rewrite N. reflexivity.
    + cbn. rewrite IH. reflexivity.
Qed.
Lemma assoc_app_some : forall A k (l l' : list (string * A)) a, assoc k l = Some a -> assoc k (l ++ l') = Some a.
Proof.
  intros A k l l' a. induction l as [|[k0 b] l IH]; cbn; [discriminate|].
  destruct (String.eqb k k0); auto.
Qed.
Lemma assoc_app_none : forall A k (l l' : list (string * A)), assoc k l = None -> assoc k (l ++ l') = assoc k l'.
Proof.
  intros A k l l'. induction l as [|[k0 b] l IH]; cbn; [reflexivity|].
  destruct (String.eqb k k0); [discriminate|auto].
Qed.

Lemma bindRet : forall A B (x : res A) (f : A -> res B) b,
  bind x f = Ret b -> exists a, x = Ret a /\ f a = Ret b.
Proof. intros A B [a|e] f b H; [exists a; auto|discriminate]. Qed.

Section Proofs.
  Variable ov : Z -> R.
  Variable subnormal : R -> R.
  Notation set_frame := (set_frame ov subnormal).
  Notation put := (put ov subnormal).
  Notation store := (store ov subnormal).
  Notation step := (step ov subnormal).
  Notation session := (session ov subnormal).

  (** ** How a dataset may change *)

  (** [keeps W A d d']: no dimension is lost or changed, frames are not lost,
      variables stay with type and shape, the data of [name] in frame [j] change
      only if [W framed name j], attributes only if [A name]. *)
  Definition keeps (W : bool -> string -> nat -> Prop) (A : string -> Prop) (d d' : dataset) : Prop :=
    (forall s n, assoc s (d_dims d) = Some n -> assoc s (d_dims d') = Some n)
    /\ (forall n, d_frames d = Some n -> exists n', d_frames d' = Some n' /\ (n <= n')%nat)
    /\ (forall s x, assoc s (d_vars d) = Some x -> exists x', assoc s (d_vars d') = Some x'
          /\ v_type x' = v_type x /\ v_framed x' = v_framed x /\ v_shape x' = v_shape x
          /\ forall j, ~ W (v_framed x) s j -> v_data x' j = v_data x j)
    /\ (forall s v, ~ A s -> assoc s (d_attrs d) = Some v -> assoc s (d_attrs d') = Some v).

  Definition nowhere : bool -> string -> nat -> Prop := fun _ _ _ => False.
  Definition nothing : string -> Prop := fun _ => False.

  Lemma keeps_refl : forall (W : bool -> string -> nat -> Prop) (A : string -> Prop) d, keeps W A d d.
  Proof.
    intros W A d. split; [auto|]. split; [intros n H; exists n; auto|]. split; [|auto].
    intros s x H. exists x. auto.
  Qed.
  Lemma keeps_trans : forall (W : bool -> string -> nat -> Prop) (A : string -> Prop) a b c, keeps W A a b -> keeps W A b c -> keeps W A a c.
  Proof.
    intros W A a b c (H1 & H2 & H3 & H4) (K1 & K2 & K3 & K4). split; [auto|]. split.
    - intros n E. destruct (H2 n E) as (m & E1 & L1). destruct (K2 m E1) as (p & E2 & L2). exists p. split; [exact E2|lia].
    - split; [|auto]. intros s x E. destruct (H3 s x E) as (x1 & E1 & T1 & F1 & S1 & D1).
      destruct (K3 s x1 E1) as (x2 & E2 & T2 & F2 & S2 & D2). exists x2.
      split; [exact E2|]. split; [congruence|]. split; [congruence|]. split; [congruence|].
      intros j N. rewrite D2, D1; [reflexivity|exact N|rewrite F1; exact N].
  Qed.
  Lemma keeps_weaken : forall (W W' : bool -> string -> nat -> Prop) (A A' : string -> Prop) d d',
    (forall f s j, W f s j -> W' f s j) -> (forall s, A s -> A' s) -> keeps W A d d' -> keeps W' A' d d'.
  Proof.
    intros W W' A A' d d' HW HA (H1 & H2 & H3 & H4). split; [exact H1|]. split; [exact H2|]. split.
    - intros s x E. destruct (H3 s x E) as (x1 & E1 & T1 & F1 & S1 & D1). exists x1.
      repeat (split; [assumption|]). intros j N. apply D1. intro K. apply N, HW, K.
    - intros s v N E. apply H4; [intro K; apply N, HA, K|exact E].
  Qed.

  Lemma keeps_add_dim : forall (W : bool -> string -> nat -> Prop) (A : string -> Prop) s n d, keeps W A d (add_dim s n d).
  Proof.
    intros W A s n d. unfold add_dim. destruct (assoc s (d_dims d)) eqn:E; [apply keeps_refl|].
    split; [intros; apply assoc_app_some; assumption|]. split; [intros m H; exists m; auto|]. split; [|auto].
    intros s' x H. exists x. auto.
  Qed.
  Lemma keeps_add_frames : forall (W : bool -> string -> nat -> Prop) (A : string -> Prop) d, keeps W A d (add_frames d).
  Proof.
    intros W A d. unfold add_frames. destruct (d_frames d) eqn:E; [apply keeps_refl|].
    split; [auto|]. split; [intros m H; congruence|]. split; [|auto].
    intros s' x H. exists x. auto.
  Qed.
  Lemma create_keeps : forall (W : bool -> string -> nat -> Prop) (A : string -> Prop) name t f dims d d', create name t f dims d = Ret d' -> keeps W A d d'.
  Proof.
    intros W A name t f dims d d' H. unfold create in H.
    destruct (andb f _); [discriminate|]. apply bindRet in H. destruct H as (sh & _ & H). injection H as <-.
    split; [auto|]. split; [intros m H; exists m; auto|]. split; [|auto].
    intros s' x H. exists x. split; [apply assoc_app_some; exact H|auto].
  Qed.
  Lemma put_keeps : forall (W : bool -> string -> nat -> Prop) (A : string -> Prop) name i v d d', W true name i -> put name i v d = Ret d' -> keeps W A d d'.
  Proof.
    intros W A name i v d d' HW H. unfold NetCDF_Model.put in H.
    destruct (assoc name (d_vars d)) as [x|] eqn:E; [|discriminate].
    destruct (d_frames d) as [n|] eqn:EF; [|discriminate].
    destruct (v_framed x) eqn:FR; [|discriminate]. apply bindRet in H. destruct H as (l & _ & H). injection H as <-.
    split; [auto|]. split.
    { intros m K. rewrite EF in K. injection K as <-. exists (Nat.max n (S i)). split; [reflexivity|lia]. }
    split; [|auto]. cbn [d_vars]. intros s y Y. destruct (String.eqb_spec s name) as [->|N].
    - rewrite assoc_update_same. eexists. split; [reflexivity|]. cbn. rewrite E in Y. injection Y as <-.
      repeat (split; [auto|]). intros j NW. rewrite FR in NW. destruct (Nat.eqb_spec j i) as [->|_]; [contradiction|reflexivity].
    - rewrite assoc_update_other by exact N. exists y. auto.
  Qed.
  Lemma put_grid_keeps : forall (W : bool -> string -> nat -> Prop) (A : string -> Prop) name i nx ny x0 y0 l d d', W true name i ->
    put_grid ov subnormal name i nx ny x0 y0 l d = Ret d' -> keeps W A d d'.
  Proof.
    intros W A name i nx ny x0 y0 l d d' HW H. unfold put_grid in H.
    destruct (assoc name (d_vars d)) as [x|] eqn:E; [|discriminate].
    destruct (d_frames d) as [n|] eqn:EF; [|discriminate].
    destruct (v_framed x) eqn:FR; [|discriminate].
    destruct (v_shape x) as [|NX [|NY [|? ?]]] eqn:SH; try discriminate.
    destruct (_ && _)%bool; [|discriminate]. injection H as <-.
    split; [auto|]. split.
    { intros m K. rewrite EF in K. injection K as <-. exists (Nat.max n (S i)). split; [reflexivity|lia]. }
    split; [|auto]. cbn [d_vars]. intros s y Y. destruct (String.eqb_spec s name) as [->|N].
    - rewrite assoc_update_same. eexists. split; [reflexivity|]. cbn. rewrite E in Y. injection Y as <-.
      repeat (split; [auto|]). intros j NW. rewrite FR in NW. destruct (Nat.eqb_spec j i) as [->|_]; [contradiction|reflexivity].
    - rewrite assoc_update_other by exact N. exists y. auto.
  Qed.
  Lemma put_fixed_keeps : forall (W : bool -> string -> nat -> Prop) (A : string -> Prop) name sh l d d', (forall j, W false name j) ->
    put_fixed name sh l d = Ret d' -> keeps W A d d'.
  Proof.
    intros W A name sh l d d' HW H. unfold put_fixed in H.
    destruct (assoc name (d_vars d)) as [x|] eqn:E; [|discriminate].
    destruct (v_framed x) eqn:FR; [discriminate|]. destruct (same_shape sh (v_shape x)); [|discriminate].
    injection H as <-. split; [auto|]. split; [intros m H; exists m; auto|]. split; [|auto].
    cbn [d_vars]. intros s y Y. destruct (String.eqb_spec s name) as [->|N].
    - rewrite assoc_update_same. eexists. split; [reflexivity|]. cbn. rewrite E in Y. injection Y as <-.
      repeat (split; [auto|]). intros j NW. exfalso. rewrite FR in NW. apply NW, HW.
    - rewrite assoc_update_other by exact N. exists y. auto.
  Qed.
  (** ** How a container changes *)
  Definition goes (W : bool -> string -> nat -> Prop) (A : string -> Prop) (c c' : container) : Prop :=
    c_fn c' = c_fn c /\ c_writable c' = c_writable c /\ c_double c' = c_double c
    /\ match c_data c, c_data c' with
       | None, None => True
       | Some d, Some d' => keeps W A d d'
       | _, _ => False
       end
    /\ (c_writable c = false -> c_defined c = true -> c_data c' = c_data c)
    /\ (c_defined c = true -> c_defined c' = true /\ c_shape c' = c_shape c /\ c_shape2 c' = c_shape2 c).

  Lemma goes_refl : forall (W : bool -> string -> nat -> Prop) (A : string -> Prop) c, goes W A c c.
  Proof.
    intros W A c. repeat (split; [reflexivity|]). split; [|auto]. destruct (c_data c); [apply keeps_refl|exact I].
  Qed.
  Lemma goes_data : forall (W : bool -> string -> nat -> Prop) (A : string -> Prop) c d d', c_data c = Some d -> keeps W A d d' -> c_writable c = true ->
    goes W A c (with_data d' c).
  Proof.
    intros W A c d d' E K WR. repeat (split; [reflexivity|]). cbn [with_data c_data]. rewrite E.
    split; [exact K|]. split; [intro; congruence|auto].
  Qed.
  Lemma goes_trans : forall (W : bool -> string -> nat -> Prop) (A : string -> Prop) a b c, goes W A a b -> goes W A b c -> goes W A a c.
  Proof.
    intros W A a b c (H1 & H2 & H3 & H4 & H5 & H6) (K1 & K2 & K3 & K4 & K5 & K6).
    split; [congruence|]. split; [congruence|]. split; [congruence|]. split.
    - destruct (c_data a), (c_data b), (c_data c); try contradiction; [|exact I]. eapply keeps_trans; eassumption.
    - split.
      + intros WR DE. destruct (H6 DE) as [D' _]. rewrite (K5 ltac:(congruence) D'). apply H5; assumption.
      + intro DE. destruct (H6 DE) as (D' & S1 & S2). destruct (K6 D') as (D'' & S3 & S4).
        repeat split; congruence.
  Qed.

  Lemma goes_weaken : forall (W W' : bool -> string -> nat -> Prop) (A A' : string -> Prop) c c',
    (forall f s j, W f s j -> W' f s j) -> (forall s, A s -> A' s) -> goes W A c c' -> goes W' A' c c'.
  Proof.
    intros W W' A A' c c' HW HA (H1 & H2 & H3 & H4 & H5). repeat (split; [assumption|]). split; [|exact H5].
    destruct (c_data c), (c_data c'); auto. eapply keeps_weaken; eassumption.
  Qed.

  Lemma writable_ret : forall c u, writable c = Ret u -> c_writable c = true.
  Proof. intros c u. unfold writable. destruct (c_writable c); [reflexivity|discriminate]. Qed.
  Lemma data_ret : forall c d, data c = Ret d -> c_data c = Some d.
  Proof. intros c d. unfold data. destruct (c_data c); congruence. Qed.

  Lemma create_value_keeps : forall (W : bool -> string -> nat -> Prop) (A : string -> Prop) name v c d d',
    (match v with
     | PInt _ => create name I4 true [] d
     | PReal _ => create name F8 true [] d
     | PArr [] _ => create name F8 true [] d
     | PArr sh _ =>
         bind (shape_of c) (fun s =>
         if andb (Nat.eqb (List.length sh) (List.length s)) (all_equal sh s) then
           if Nat.eqb (List.length s) 3
           then create name (float_type c) true ["ndof"; "nx"; "ny"]%string d
           else create name (float_type c) true ["nx"; "ny"]%string d
         else if Nat.eqb (List.length sh) 2 then
           bind (shape2_of c) (fun s2 =>
           if all_equal sh [fst s2; snd s2]
           then create name (float_type c) true ["nx"; "ny"]%string d
           else Exc RuntimeErr)
         else Exc RuntimeErr)
     | POther => Exc RuntimeErr
     end) = Ret d' ->
    keeps W A d d' /\ exists dims, create name (first_type (c_double c) v) true dims d = Ret d'.
  Proof.
    intros W A name v c d d' H.
    assert (G : exists dims, create name (first_type (c_double c) v) true dims d = Ret d').
    { destruct v as [z|x|[|n sh] l|]; [eexists; exact H|eexists; exact H|eexists; exact H| |discriminate].
      apply bindRet in H. destruct H as (s & _ & H).
      destruct (andb _ _).
      - destruct (Nat.eqb (List.length s) 3); eexists; exact H.
      - destruct (Nat.eqb _ 2); [|discriminate]. apply bindRet in H. destruct H as (s2 & _ & H).
        destruct (all_equal _ _); [|discriminate]. eexists; exact H. }
    split; [|exact G]. destruct G as [dims G]. eapply create_keeps; exact G.
  Qed.

  Lemma cim_spec : forall (W : bool -> string -> nat -> Prop) (A : string -> Prop) name v c c1, create_if_missing name v c = Ret c1 ->
    goes W A c c1 /\ (exists d, c_data c1 = Some d /\ assoc name (d_vars d) <> None)
    /\ ((exists t, type_in_use c name t /\ c1 = c)
        \/ (unused c name /\ type_in_use c1 name (first_type (c_double c) v)))
    /\ c_cur c1 = c_cur c.
  Proof.
    intros W A name v c c1 H. unfold create_if_missing in H.
    apply bindRet in H. destruct H as (d & D & H). apply data_ret in D.
    destruct (assoc name (d_vars d)) as [x|] eqn:E.
    - injection H as <-. split; [apply goes_refl|]. split; [exists d; split; [exact D|congruence]|].
      split; [|reflexivity]. left. exists (v_type x). split; [exists d, x; auto|reflexivity].
    - apply bindRet in H. destruct H as (u & WR & H). apply writable_ret in WR.
      apply bindRet in H. destruct H as (d' & C & H). injection H as <-.
      destruct (create_value_keeps W A name v c d d' C) as [K [dims G]].
      assert (NEW : exists x, assoc name (d_vars d') = Some x /\ v_type x = first_type (c_double c) v).
      { unfold create in G. destruct (andb true _); [discriminate|]. apply bindRet in G.
        destruct G as (sh & _ & G). injection G as <-. cbn [d_vars]. rewrite assoc_app_none by exact E.
        cbn. rewrite String.eqb_refl. eexists. split; reflexivity. }
      destruct NEW as (x & NX & NT).
      split; [eapply goes_data; eassumption|]. split; [exists d'; split; [reflexivity|congruence]|].
      split; [|reflexivity]. right. split; [exists d; auto|]. exists d', x. auto.
  Qed.

  Lemma goes_set_frame : forall (W : bool -> string -> nat -> Prop) (A : string -> Prop) i name v c, (0 <= i -> W true name (Z.to_nat i)) ->
    goes W A c (fst (set_frame i name v c)).
  Proof.
    intros W A i name v c HW. unfold NetCDF_Model.set_frame.
    destruct (private name) as [[|]|e]; [apply goes_refl| |apply goes_refl].
    destruct (create_if_missing name v c) as [c1|e] eqn:C; [|apply goes_refl].
    destruct (cim_spec W A name v c c1 C) as (G & _ & _).
    destruct (Z.ltb_spec i 0); [exact G|].
    destruct (bind (writable c1) _) as [d'|e] eqn:P; [|exact G]. cbn [fst].
    eapply goes_trans; [exact G|]. apply bindRet in P. destruct P as (u & WR & P). apply writable_ret in WR.
    apply bindRet in P. destruct P as (d1 & D1 & P). apply data_ret in D1.
    eapply goes_data; [exact D1| |exact WR]. eapply put_keeps; [|exact P]. apply HW. assumption.
  Qed.

  Lemma goes_set_grid : forall (W : bool -> string -> nat -> Prop) (A : string -> Prop) i name sh l x0 y0 c,
    (0 <= i -> W true name (Z.to_nat i)) ->
    goes W A c (fst (set_grid ov subnormal i name sh l x0 y0 c)).
  Proof.
    intros W A i name sh l x0 y0 c HW. unfold set_grid.
    destruct (bind (shape_of c) _) as [c1|e] eqn:C; [|apply goes_refl].
    apply bindRet in C. destruct C as (s & _ & C).
    destruct (cim_spec W A name _ c c1 C) as (G & _ & _).
    destruct sh as [|nx [|ny [|? ?]]]; try exact G.
    destruct (Z.ltb_spec i 0); [exact G|].
    destruct (bind (writable c1) _) as [d'|e] eqn:P; [|exact G]. cbn [fst].
    eapply goes_trans; [exact G|]. apply bindRet in P. destruct P as (u & WR & P). apply writable_ret in WR.
    apply bindRet in P. destruct P as (d1 & D1 & P). apply data_ret in D1.
    eapply goes_data; [exact D1| |exact WR]. eapply put_grid_keeps; [|exact P]. apply HW. assumption.
  Qed.

  Lemma goes_define : forall (W : bool -> string -> nat -> Prop) (A : string -> Prop) sh c, c_defined c = false -> goes W A c (fst (define sh c)).
  Proof.
    intros W A sh c ND.
    assert (Z : forall s s2, goes W A c (mkCont (c_fn c) (c_data c) (c_writable c) (c_double c) (c_defined c) s s2 (c_cur c))).
    { intros s s2. repeat (split; [reflexivity|]). cbn. split; [destruct (c_data c); [apply keeps_refl|exact I]|].
      split; [auto|]. intro; congruence. }
    unfold define. cbv zeta.
    assert (Y : forall nx ny ndof, goes W A c (fst
      (match c_data c with
       | None => (mkCont (c_fn c) (c_data c) (c_writable c) (c_double c) (c_defined c) (Some sh) (Some (nx, ny)) (c_cur c), Exc AttributeErr)
       | Some d => (mkCont (c_fn c) (Some (add_dim "ny"%string ny (add_dim "nx"%string nx
             (if (1 <? ndof)%nat then add_dim "ndof"%string ndof (add_frames d) else add_frames d))))
             (c_writable c) (c_double c) true (Some sh) (Some (nx, ny)) (c_cur c), @Ret unit tt)
       end))).
    { intros nx ny ndof. destruct (c_data c) as [d|] eqn:D; cbn [fst].
      - repeat (split; [reflexivity|]). cbn [c_data]. rewrite D. split.
        + eapply keeps_trans; [apply keeps_add_frames|]. eapply keeps_trans; [|eapply keeps_trans; apply keeps_add_dim].
          destruct (1 <? ndof)%nat; [apply keeps_add_dim|apply keeps_refl].
        + split; intros; congruence.
      - exact (Z (Some sh) (Some (nx, ny))). }
    destruct sh as [|a [|b [|c0 [|e l]]]]; try apply Z; apply Y.
  Qed.

  Lemma goes_set_shape : forall (W : bool -> string -> nat -> Prop) (A : string -> Prop) sh n c, goes W A c (fst (set_shape sh n c)).
  Proof.
    intros W A sh n c. unfold set_shape. cbv zeta. destruct (c_defined c) eqn:D.
    - destruct (shape_of c); [|apply goes_refl]. destruct (all_equal _ _); apply goes_refl.
    - apply goes_define. exact D.
  Qed.

  Lemma goes_set_rigid : forall (W : bool -> string -> nat -> Prop) (A : string -> Prop) sh l n c, (forall j, W false "h"%string j) ->
    goes W A c (fst (set_rigid sh l n c)).
  Proof.
    intros W A sh l n c HW. unfold set_rigid. pose proof (goes_set_shape W A sh n c) as G.
    destruct (set_shape sh n c) as [c1 [u|e]]; cbn [fst] in G |- *; [|exact G].
    destruct (bind (shape2_of c1) _) as [d'|e] eqn:P; cbn [fst]; [|exact G].
    eapply goes_trans; [exact G|]. apply bindRet in P. destruct P as (s2 & _ & P).
    destruct sh as [|hnx [|hny [|? ?]]]; try discriminate.
    apply bindRet in P. destruct P as (d & D & P). apply data_ret in D.
    apply bindRet in P. destruct P as (u' & WR & P). apply writable_ret in WR. cbv zeta in P.
    apply bindRet in P. destruct P as (d2 & CR & P).
    eapply goes_data; [exact D| |exact WR].
    eapply keeps_trans; [|eapply keeps_trans; [|eapply put_fixed_keeps; [exact HW|exact P]]].
    2: { unfold create_fixed in CR. destruct (assoc _ _); [injection CR as <-; apply keeps_refl|].
         eapply create_keeps; exact CR. }
    destruct (andb _ _); [apply keeps_refl|]. destruct (assoc _ _); [apply keeps_refl|].
    eapply keeps_trans; apply keeps_add_dim.
  Qed.
  Lemma goes_set_elastic : forall (W : bool -> string -> nat -> Prop) (A : string -> Prop) sh l c, (forall j, W false "elastic_surface"%string j) ->
    goes W A c (fst (set_elastic sh l c)).
  Proof.
    intros W A sh l c HW. unfold set_elastic. destruct (bind (data c) _) as [d'|e] eqn:P; cbn [fst]; [|apply goes_refl].
    apply bindRet in P. destruct P as (d & D & P). apply data_ret in D.
    apply bindRet in P. destruct P as (u' & WR & P). apply writable_ret in WR.
    apply bindRet in P. destruct P as (d2 & CR & P).
    eapply goes_data; [exact D| |exact WR].
    eapply keeps_trans; [|eapply put_fixed_keeps; [exact HW|exact P]].
    unfold create_fixed in CR. destruct (assoc _ _); [injection CR as <-; apply keeps_refl|].
    eapply create_keeps; exact CR.
  Qed.
  Lemma goes_set_file : forall (W : bool -> string -> nat -> Prop) (A : string -> Prop) name v c,
    (forall n sh l, v = PArr (n :: sh) l -> forall j, W false name j) ->
    ((forall n sh l, v <> PArr (n :: sh) l) -> A name) ->
    goes W A c (fst (set_file name v c)).
  Proof.
    intros W A name v c HW HA. unfold set_file. cbv zeta.
    assert (AT : A name -> goes W A c (fst
      (match bind (data c) (fun d => bind (writable c) (fun _ =>
         Ret (mkData (d_dims d) (d_frames d) (d_vars d) (update name v (d_attrs d))))) with
       | Ret d' => (with_data d' c, Ret tt) | Exc e => (c, Exc e) end))).
    { intro AN. destruct (bind (data c) _) as [d'|e] eqn:P; cbn [fst]; [|apply goes_refl].
      apply bindRet in P. destruct P as (d & D & P). apply data_ret in D.
      apply bindRet in P. destruct P as (u' & WR & P). apply writable_ret in WR. injection P as <-.
      eapply goes_data; [exact D| |exact WR].
      split; [auto|]. split; [intros m H; exists m; auto|]. split; [intros s x H; exists x; auto|].
      cbn [d_attrs]. intros s w NS E. rewrite assoc_update_other; [exact E|]. intros ->. contradiction. }
    destruct v as [z|x|[|n sh] l|]; try (apply AT, HA; intros; discriminate).
    destruct (bind (data c) (fun d => bind (writable c) (fun _ => bind (match assoc name (d_vars d) with
      Some _ => Ret d | None => _ end) _))) as [d'|e] eqn:P; cbn [fst]; [|apply goes_refl].
    apply bindRet in P. destruct P as (d & D & P). apply data_ret in D.
    apply bindRet in P. destruct P as (u' & WR & P). apply writable_ret in WR.
    apply bindRet in P. destruct P as (d2 & CR & P).
    eapply goes_data; [exact D| |exact WR].
    eapply keeps_trans; [|eapply put_fixed_keeps; [eapply HW; reflexivity|exact P]].
    destruct (assoc name (d_vars d)); [injection CR as <-; apply keeps_refl|].
    apply bindRet in CR. destruct CR as (s & _ & CR). destruct (andb _ _); [|discriminate].
    eapply create_keeps; exact CR.
  Qed.
End Proofs.
