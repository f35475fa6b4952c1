(** * C73: which files a NetCDF container changes *)
From Coq Require Import Reals ZArith Lia Lra List Arith Bool String Ascii.
From Verif Require Import Py Logger_Model NetCDF_Model NetCDF_Spec NetCDF_Proofs NetCDF_Session.
Import ListNotations.
Local Open Scope string_scope.
Local Open Scope list_scope.
Local Open Scope Z_scope.

Section RO.
  Variable ov : Z -> R.
  Variable sub : R -> R.

  Lemma step_goes : forall o c k, idle o = false -> goes (wset o) (aset o) c (fst (step ov sub o (c, k))) /\ snd (step ov sub o (c, k)) = k.
  Proof.
    intros o c k ID. destruct o; try discriminate; cbn [step fst snd]; (split; [|reflexivity]).
    - apply goes_set_frame. intro. cbn. auto.
    - apply goes_set_grid. intro. cbn. auto.
    - apply goes_set_shape.
    - apply goes_set_rigid. cbn. auto.
    - apply goes_set_elastic. cbn. auto.
    - apply goes_set_file.
      + intros n sh l -> j. cbn. auto.
      + intro N. destruct v as [z|x|[|n sh] l|]; cbn; try reflexivity. exfalso. eapply N. reflexivity.
  Qed.

  (** Open for reading, or closed. *)
  Definition RO (fn : string) (d : dataset) (k : disk) (st : container * disk) : Prop :=
    snd st = k /\ c_fn (fst st) = fn /\ c_writable (fst st) = false
    /\ ((c_data (fst st) = Some d /\ c_defined (fst st) = true) \/ c_data (fst st) = None).
  Lemma step_RO : forall fn d k o st, assoc fn k = Some d -> (forall fr db, o <> Reopen true fr db) ->
    RO fn d k st -> RO fn d k (step ov sub o st).
  Proof.
    intros fn d k o [c k0] A NO (E & F & Wf & D). cbn [fst snd] in *. subst k0.
    destruct (idle o) eqn:ID.
    - destruct o; try discriminate; cbn [step].
      + unfold next_frame. destruct (frame_index _ _); cbn [fst]; repeat split; assumption.
      + repeat split; assumption.
      + unfold sync. destruct (c_data c) as [d0|] eqn:DD; cbn [fst]; rewrite ?Wf; repeat split; cbn [fst snd]; rewrite ?DD; auto.
      + unfold close. destruct (c_data c) as [d0|] eqn:DD; rewrite ?Wf; repeat split; cbn; auto.
      + destruct rw; [exfalso; eapply NO; reflexivity|].
        assert (CL : exists c', close c k = (k, c') /\ c_fn c' = fn /\ c_writable c' = false /\ c_data c' = None).
        { unfold close. destruct (c_data c) as [d0|] eqn:DD; rewrite ?Wf; eexists; (split; [reflexivity|]); cbn; auto. }
        destruct CL as (c' & CL & X1 & X2 & X4). rewrite CL. unfold open_container. rewrite F, A.
        assert (Y : RO fn d k (c', k)) by (repeat split; cbn [fst snd]; auto).
        destruct (assoc "nx" (d_dims d)); [|exact Y]. destruct (assoc "ny" (d_dims d)); [|exact Y].
        destruct (set_start _ _) as [c2|e] eqn:S; [|exact Y]. apply set_start_data in S.
        destruct S as (S1 & S2 & S3 & _ & _ & S6 & _). repeat split; cbn [fst snd]; rewrite ?S1, ?S2, ?S3, ?S6; cbn; auto.
    - destruct (step_goes o c k ID) as [G K]. destruct G as (G1 & G2 & G3 & G4 & G5 & G6).
      split; [exact K|]. split; [congruence|]. split; [congruence|]. destruct D as [[D Df]|D].
      + left. destruct (G6 Df) as (Q & _). split; [|exact Q]. rewrite (G5 Wf Df). exact D.
      + right. rewrite D in G4. assert (Z : forall o' : option dataset, match o' with Some _ => False | None => True end -> o' = None) by (intros [?|]; tauto).
        apply Z. exact G4.
  Qed.

  Lemma session_RO : forall fn d k os st, assoc fn k = Some d -> (forall fr db, ~ In (Reopen true fr db) os) ->
    RO fn d k st -> RO fn d k (session ov sub os st).
  Proof.
    intros fn d k os. induction os as [|o os IH]; intros st A NO I; [exact I|]. cbn [session].
    apply IH; [exact A|intros fr db X; apply (NO fr db); right; exact X|].
    apply step_RO; [exact A|intros fr db ->; apply (NO fr db); left; reflexivity|exact I].
  Qed.

  Lemma close_other : forall c k fn', fn' <> c_fn c ->
    assoc fn' (fst (close c k)) = assoc fn' k /\ c_fn (snd (close c k)) = c_fn c.
  Proof.
    intros c k fn' N. unfold close. destruct (c_data c) as [d|]; [|auto]. cbn [fst snd c_fn].
    destruct (c_writable c); [|auto]. rewrite assoc_update_other by exact N. auto.
  Qed.
  Lemma step_other : forall o c k fn', fn' <> c_fn c ->
    c_fn (fst (step ov sub o (c, k))) = c_fn c /\ assoc fn' (snd (step ov sub o (c, k))) = assoc fn' k.
  Proof.
    intros o c k fn' N. destruct (idle o) eqn:ID.
    - destruct o; try discriminate; cbn [step fst snd].
      + unfold next_frame. destruct (frame_index _ _); cbn; auto.
      + auto.
      + unfold sync. destruct (c_data c) as [d|]; cbn [fst]; [|auto]. destruct (c_writable c); [|auto].
        rewrite assoc_update_other by exact N. auto.
      + pose proof (close_other c k fn' N) as C. destruct (close c k) as [k' c']. cbn [fst snd] in *. tauto.
      + pose proof (close_other c k fn' N) as C. destruct (close c k) as [k' c']. cbn [fst snd] in *. destruct C as [C1 C2].
        unfold open_container. destruct rw; (destruct (assoc (c_fn c) k') as [d|]; [|cbn; tauto]);
          (destruct (assoc "nx" (d_dims d)); [|cbn; tauto]); (destruct (assoc "ny" (d_dims d)); [|cbn; tauto]);
          (destruct (set_start _ _) as [c2|e] eqn:S; [|cbn; tauto]); apply set_start_data in S; destruct S as (_ & _ & S3 & _);
          cbn [fst snd]; rewrite S3; cbn; tauto.
    - destruct (step_goes o c k ID) as [G K]. rewrite K. destruct G as (G1 & _). auto.
  Qed.
End RO.

(** A container opened for reading never changes a file, whatever is done with
    it (unless it is opened again for appending), and as long as it is open its
    frames and whole-file data read the same. *)
Theorem C73_read_only : forall ov sub fn fr db k k' c os,
  open_container fn fr db Read k = (k', Ret c) ->
  (forall fr' db', ~ In (Reopen true fr' db') os) ->
  k' = k /\ snd (session ov sub os (c, k')) = k
  /\ (is_open (fst (session ov sub os (c, k'))) ->
      (forall i name, get_frame i name (fst (session ov sub os (c, k'))) = get_frame i name c)
      /\ (forall name, get_file name (fst (session ov sub os (c, k'))) = get_file name c)
      /\ length_of (fst (session ov sub os (c, k'))) = length_of c).
Proof.
  intros ov sub fn fr db k k' c os O NO. unfold open_container in O.
  destruct (assoc fn k) as [d|] eqn:A; [|discriminate].
  destruct (assoc "nx" (d_dims d)); [|discriminate]. destruct (assoc "ny" (d_dims d)); [|discriminate].
  injection O as <- S. apply set_start_data in S. destruct S as (S1 & S2 & S3 & _ & _ & S6 & _). cbn in *.
  assert (I : RO fn d k (c, k)) by (repeat split; cbn [fst snd]; auto).
  destruct (session_RO ov sub fn d k os (c, k) A NO I) as (K & _ & _ & D).
  split; [reflexivity|]. split; [exact K|]. intro OP. destruct D as [[D _]|D]; [|elim OP; exact D].
  unfold get_frame, get_file, length_of, data. rewrite D, S1. auto.
Qed.
Print Assumptions C73_read_only.

(** Writing to it raises RuntimeError, for names in use and for new names. *)
Theorem C73_write_raises : forall ov sub fn fr db k k' c i name v,
  open_container fn fr db Read k = (k', Ret c) -> private name = Ret false -> 0 <= i ->
  set_frame ov sub i name v c = (c, Exc RuntimeErr).
Proof.
  intros ov sub fn fr db k k' c i name v O P Hi. unfold open_container in O.
  destruct (assoc fn k) as [d|] eqn:A; [|discriminate].
  destruct (assoc "nx" (d_dims d)); [|discriminate]. destruct (assoc "ny" (d_dims d)); [|discriminate].
  injection O as <- S. apply set_start_data in S. destruct S as (S1 & S2 & _). cbn in *.
  unfold set_frame. rewrite P. unfold create_if_missing, data, writable. rewrite S1, S2. cbn [bind].
  destruct (assoc name (d_vars d)); [|reflexivity]. destruct (Z.ltb_spec i 0); [lia|]. rewrite S2. reflexivity.
Qed.
Print Assumptions C73_write_raises.
Theorem C73_grid_raises : forall ov sub fn fr db k k' c i name nx ny l x0 y0,
  open_container fn fr db Read k = (k', Ret c) -> 0 <= i ->
  set_grid ov sub i name [nx; ny] l x0 y0 c = (c, Exc RuntimeErr).
Proof.
  intros ov sub fn fr db k k' c i name nx ny l x0 y0 O Hi. unfold open_container in O.
  destruct (assoc fn k) as [d|] eqn:A; [|discriminate].
  destruct (assoc "nx" (d_dims d)); [|discriminate]. destruct (assoc "ny" (d_dims d)); [|discriminate].
  injection O as <- S. apply set_start_data in S. destruct S as (S1 & S2 & S3 & S4 & _). cbn in *.
  unfold set_grid, shape_of. rewrite S4. cbn [bind]. unfold create_if_missing, data, writable. rewrite S1, S2. cbn [bind].
  destruct (assoc name (d_vars d)); [|reflexivity]. destruct (Z.ltb_spec i 0); [lia|]. rewrite S2. reflexivity.
Qed.
Print Assumptions C73_grid_raises.

(** A container changes no other file, in any mode. *)
Theorem C73_other_files : forall ov sub fn fr db m k k' c os fn',
  open_container fn fr db m k = (k', Ret c) -> fn' <> fn ->
  assoc fn' (snd (session ov sub os (c, k'))) = assoc fn' k.
Proof.
  intros ov sub fn fr db m k k' c os fn' O N.
  assert (H : c_fn c = fn /\ assoc fn' k' = assoc fn' k).
  { unfold open_container in O. destruct m.
    - destruct (assoc fn k) as [d|]; [|discriminate]. destruct (assoc "nx" (d_dims d)); [|discriminate].
      destruct (assoc "ny" (d_dims d)); [|discriminate]. injection O as <- S. apply set_start_data in S. destruct S as (_ & _ & S3 & _). cbn in S3. auto.
    - injection O as <- S. apply set_start_data in S. destruct S as (_ & _ & S3 & _). cbn in S3.
      rewrite assoc_update_other by exact N. auto.
    - destruct (assoc fn k) as [d|]; [|discriminate]. destruct (assoc "nx" (d_dims d)); [|discriminate].
      destruct (assoc "ny" (d_dims d)); [|discriminate]. injection O as <- S. apply set_start_data in S. destruct S as (_ & _ & S3 & _). cbn in S3. auto. }
  destruct H as [F K]. rewrite <- K. clear K O. subst fn. revert c k' N.
  induction os as [|o os IH]; intros c k' N; [reflexivity|]. cbn [session].
  pose proof (step_other ov sub o c k' fn' N) as S. destruct (step ov sub o (c, k')) as [c1 k1]. cbn [fst snd] in S.
  destruct S as [S1 S2]. rewrite IH by congruence. exact S2.
Qed.
Print Assumptions C73_other_files.

(** A file on the disk, opened for reading. *)
Example C73_nonvacuous :
  let d := mkData [("nx", 2%nat); ("ny", 2%nat)] (Some 1%nat) [] [] in
  exists c, open_container "f" 0 false Read [("f", d); ("g", d)] = ([("f", d); ("g", d)], Ret c)
    /\ private "load" = Ret false /\ is_open c.
Proof. eexists. split; [reflexivity|]. split; [reflexivity|]. cbn. discriminate. Qed.
