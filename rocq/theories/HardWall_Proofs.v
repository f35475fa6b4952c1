(** * Proofs about the command line *)
From Coq Require Import Reals ZArith Lia Lra List Arith Bool String Permutation.
From Verif Require Import Py FFT_Base HalfSpace_Model Free_Model Systems_Model Factory_Model Pipeline_Model Pipeline_Spec
  Pipeline_Proofs Pipeline_Sort Pipeline_Results HardWall_Model HardWall_Spec.
From Coq Require Import List.
Import ListNotations.
Local Open Scope R_scope.

(** ** The history *)
Definition pr (e : entry) : R * R := (e_disp e, e_area e).
Lemma insert_pr : forall p l, map pr (insert_entry p l) = insert (pr p) (map pr l).
Proof.
  induction l as [|q l IH]; [reflexivity|]. cbn [insert_entry insert map].
  change (snd (pr p)) with (e_area p). change (snd (pr q)) with (e_area q).
  destruct (Rlt_dec (e_area p) (e_area q)); cbn [map]; [reflexivity|]. rewrite IH. reflexivity.
Qed.
Lemma fold_pr : forall l s, map pr (fold_left (fun s p => insert_entry p s) l s)
  = fold_left (fun s p => insert p s) (map pr l) (map pr s).
Proof. induction l as [|p l IH]; intros s; [reflexivity|]. cbn [fold_left map]. rewrite IH, insert_pr. reflexivity. Qed.
Lemma sort_pr : forall l, map pr (sort_entries l) = sort_by_area (map pr l).
Proof. intros. unfold sort_entries, sort_by_area. apply (fold_pr l []). Qed.

(** Sorting twice: a sorted list stays as it is. *)
Fixpoint rising (l : list entry) : Prop :=
  match l with
  | [] => True
  | p :: l' => (forall q, In q l' -> e_area p <= e_area q) /\ rising l'
  end.
Lemma insert_in : forall p l q, In q (insert_entry p l) -> q = p \/ In q l.
Proof.
  induction l as [|r l IH]; intros q H; cbn in H; [destruct H as [<-|[]]; auto|].
  destruct (Rlt_dec (e_area p) (e_area r)); cbn in H.
  - destruct H as [<-|[<-|H]]; auto; [right; left; auto|right; right; auto].
  - destruct H as [<-|H]; [right; left; auto|]. apply IH in H. destruct H; [auto|right; right; auto].
Qed.
Lemma insert_rising : forall p l, rising l -> rising (insert_entry p l).
Proof.
  induction l as [|q l IH]; intros A; [split; [intros ? []|exact I]|]. cbn. destruct A as [A1 A2].
  destruct (Rlt_dec (e_area p) (e_area q)).
  - split; [|split; assumption]. intros x [<-|H]; [lra|]. specialize (A1 _ H). lra.
  - split; [|apply IH; exact A2]. intros x H. apply insert_in in H. destruct H as [->|H]; [lra|auto].
Qed.
Lemma insert_last : forall p l, (forall q, In q l -> e_area q <= e_area p) -> insert_entry p l = l ++ [p].
Proof.
  induction l as [|q l IH]; intros H; [reflexivity|]. cbn. destruct (Rlt_dec (e_area p) (e_area q)) as [L|L].
  - specialize (H q (or_introl eq_refl)). lra.
  - rewrite IH; [reflexivity|]. intros x X. apply H. right. exact X.
Qed.
Lemma fold_rising : forall l s, rising (s ++ l) -> fold_left (fun s p => insert_entry p s) l s = s ++ l.
Proof.
  induction l as [|p l IH]; intros s A; [rewrite app_nil_r; reflexivity|]. cbn [fold_left].
  rewrite insert_last.
  - rewrite IH; rewrite <- app_assoc; [reflexivity|exact A].
  - clear IH. induction s as [|x s IHs]; intros q Q; [destruct Q|]. destruct A as [A1 A2].
    destruct Q as [<-|Q]; [apply A1; apply in_or_app; right; left; reflexivity|]. apply IHs; assumption.
Qed.
Lemma sort_rising : forall l, rising (sort_entries l).
Proof.
  intros l. unfold sort_entries. assert (G : forall l s, rising s -> rising (fold_left (fun s p => insert_entry p s) l s)).
  { clear l. induction l as [|p l IH]; intros s A; [exact A|]. apply IH. apply insert_rising. exact A. }
  apply G. exact I.
Qed.
Lemma sort_again : forall l, sort_entries (sort_entries l) = sort_entries l.
Proof. intros l. unfold sort_entries at 1. rewrite fold_rising; [reflexivity|]. apply sort_rising. Qed.
Lemma sort_snoc : forall l e, sort_entries (sort_entries l ++ [e]) = sort_entries (l ++ [e]).
Proof.
  intros l e. unfold sort_entries. rewrite !fold_left_app. cbn [fold_left]. f_equal.
  apply sort_again.
Qed.
Lemma insert_length : forall p l, List.length (insert_entry p l) = S (List.length l).
Proof. induction l as [|q l IH]; [reflexivity|]. cbn. destruct (Rlt_dec _ _); cbn; [reflexivity|]. rewrite IH. reflexivity. Qed.
Lemma sort_length : forall l, List.length (sort_entries l) = List.length l.
Proof.
  intros l. unfold sort_entries. assert (G : forall l s, List.length (fold_left (fun s p => insert_entry p s) l s) = (List.length s + List.length l)%nat).
  { clear l. induction l as [|p l IH]; intros s; cbn [fold_left List.length]; [lia|]. rewrite IH, insert_length. lia. }
  rewrite G. reflexivity.
Qed.

(** The position that comes next is that of the pipeline for the same
    records, in any order. *)
Definition as_history (l : list entry) : history := mkHist (map e_disp l) [] [] (map e_area l) [].
Lemma position_pipeline : forall top middle bot n l,
  hw_displacement_of top middle bot n (sort_entries l) = next_displacement top middle bot n (Some (as_history l)).
Proof.
  intros top middle bot n l. unfold next_displacement, as_history. cbn [h_disps h_areas].
  assert (C : combine (map e_disp l) (map e_area l) = map pr l) by (induction l as [|e l IH]; [reflexivity|]; cbn; rewrite IH; reflexivity).
  rewrite C, <- sort_pr. pose proof (sort_length l) as L. rewrite map_length.
  destruct l as [|e0 [|e1 l]]; [reflexivity|reflexivity|].
  unfold hw_displacement_of. cbn [map].
  remember (sort_entries (e0 :: e1 :: l)) as s eqn:S. clear S.
  destruct s as [|s0 [|s1 s]]; [discriminate|discriminate|]. remember (s0 :: s1 :: s) as t.
  rewrite map_map. unfold pr at 1. cbn [snd].
  assert (N : forall j, nth j (map e_disp t) 0 = fst (nth j (map pr t) (0, 0))).
  { intros j. clear. revert j. induction t as [|e t IH]; intros [|j]; cbn; auto. }
  rewrite !N, map_length. rewrite <- L. subst t. reflexivity.
Qed.

(** ** Steps *)
Section Steps.
  Variable solver : substrate -> surface -> option R -> option R -> option R -> option R -> nat -> res oresult.
  Variable active : surface -> option R -> option R -> zone.
  Variable sb : substrate.
  Variable young : R.
  Variable sizes : list R.
  Variable unit : string.
  Variable a : hw_args.
  Notation plastic := (is_plastic a).
  Notation step := (hw_step solver active sb sizes a).
  Notation run := (hw_run solver active sb young sizes unit a).
  Notation total := (total sizes).
  Notation psolver := (fun sb sf h s => solver sb sf h (sa_offset s) (sa_force s) (hw_pentol a) (sa_maxiter s)).

  (** A finished calculation. *)
  Definition finished (s : hdone) : Prop :=
    solver sb (hd_before s) (hardness_at plastic (hd_before s)) (hd_off s) (hd_force s) (hw_pentol a) (hw_maxiter a) = Ret (hd_opt s)
    /\ same_topography (hd_after s) (hd_before s)
    /\ (plastic = false -> hd_after s = hd_before s)
    /\ (plastic = true -> plastic_change sb (hd_before s) (hd_after s) (hd_opt s))
    /\ exists n0 n1, a_shape (forces s) = [n0; n1] /\ head_slice [n0; n1] (o_x (hd_opt s)) = Ret (hd_u s).
  Definition entry_of (s : hdone) : entry :=
    (hd_position s, amean (hd_u s) - amean (heights (hd_before s)) - hd_position s, hd_load s,
     count_positive (forces s) / INR (size (sf_grid (hd_before s))), o_success (hd_opt s)).
  Definition shows (s : hdone) (o : step_out) : Prop :=
    o = mkStep (a_shape (o_x (hd_opt s)), active (hd_before s) (hd_off s) (hd_force s)) (hd_u s) (forces s)
          (hd_position s) (hd_load s) (count_positive (forces s) / INR (size (sf_grid (hd_before s)))).
  Definition answers (c : hw_command) (h : list entry) (s : hdone) : Prop :=
    match c with
    | Pressure p => hd_off s = None /\ hd_force s = Some (p * total) /\ hd_position s = o_offset (hd_opt s) /\ hd_load s = p
    | Next => hd_force s = None /\ hd_off s = Some (hd_position s) /\ hd_load s = asum (forces s) / total
        /\ exists top bot, amax (heights (hd_before s)) = Ret top /\ amin (heights (hd_before s)) = Ret bot
           /\ hd_position s = hw_displacement_of top (amean (heights (hd_before s))) bot (size (sf_grid (hd_before s))) h
    end.
  Definition after (c : hw_command) (h : list entry) (s : hdone) : list entry :=
    match c with Pressure _ => h | Next => sort_entries (h ++ [entry_of s]) end.

  Lemma fields_ret : forall sf off force opt c u f, fields active sf off force opt = Ret (c, u, f) ->
    f = o_jac opt /\ c = (a_shape (o_x opt), active sf off force)
    /\ exists n0 n1, a_shape (o_jac opt) = [n0; n1] /\ head_slice [n0; n1] (o_x opt) = Ret u.
  Proof.
    intros sf off force opt c u f H. unfold fields in H. destruct (a_shape (o_jac opt)) as [|n0 [|n1 [|? ?]]]; try discriminate.
    apply bindRet in H. destruct H as (u' & U & H). injection H as <- <- <-. split; [reflexivity|]. split; [reflexivity|].
    exists n0, n1. auto.
  Qed.

  Lemma step_ret : forall c h w w' o h', step c h w = (w', Ret (o, h')) ->
    exists s, hd_before s = snd w /\ hd_after s = snd w' /\ finished s /\ shows s o /\ answers c h s /\ h' = after c h s.
  Proof.
    intros [p|] h w w' o h' H; cbn [hw_step] in H.
    - unfold pressure_step in H. destruct (hw_proxy solver sb a None (Some (p * HardWall_Model.total sizes)) w) as [w1 [opt|e]] eqn:P; [|discriminate].
      injection H as <- H. apply bindRet in H. destruct H as (o1 & H1 & H). injection H as <- <-.
      apply bindRet in H1. destruct H1 as ([[c u] f] & F & H1). injection H1 as <-.
      destruct (fields_ret _ _ _ _ _ _ _ F) as (-> & -> & Sh). unfold hw_proxy in P.
      destruct (proxy_ret _ _ _ _ _ _ _ P) as (S & T & E & E2). cbn [sa_offset sa_force sa_maxiter] in S.
      exists (mkHd (snd w) (snd w1) None (Some (p * total)) opt u (o_offset opt) p).
      split; [reflexivity|]. split; [reflexivity|]. split; [split; [exact S|]; split; [exact T|]; split; [exact E|]; split; [exact E2|exact Sh]|].
      split; [reflexivity|]. split; [repeat split|]. reflexivity.
    - unfold next_step in H. destruct (amax (heights (snd w))) as [top|] eqn:Tp; [|discriminate]. cbn [bind] in H.
      destruct (amin (heights (snd w))) as [bot|] eqn:Bt; [|discriminate]. cbn [bind] in H.
      set (x := hw_displacement_of top (amean (heights (snd w))) bot (size (sf_grid (snd w))) h) in *.
      destruct (hw_proxy solver sb a (Some x) None w) as [w1 [opt|e]] eqn:P; [|discriminate].
      injection H as <- H. apply bindRet in H. destruct H as ([[c u] f] & F & H). injection H as <- <-.
      destruct (fields_ret _ _ _ _ _ _ _ F) as (-> & -> & Sh). unfold hw_proxy in P.
      destruct (proxy_ret _ _ _ _ _ _ _ P) as (S & T & E & E2). cbn [sa_offset sa_force sa_maxiter] in S.
      exists (mkHd (snd w) (snd w1) (Some x) None opt u x (asum (o_jac opt) / total)).
      split; [reflexivity|]. split; [reflexivity|]. split; [split; [exact S|]; split; [exact T|]; split; [exact E|]; split; [exact E2|exact Sh]|].
      split; [reflexivity|]. split; [|reflexivity]. cbn [answers hd_force hd_off hd_position hd_load hd_before forces hd_opt].
      split; [reflexivity|]. split; [reflexivity|]. split; [reflexivity|]. exists top, bot. auto.
  Qed.

  Fixpoint chain (cs : list hw_command) (h : list entry) (sf : surface) (ss : list hdone) : Prop :=
    match cs, ss with
    | _, [] => True
    | c :: cs', s :: ss' => hd_before s = sf /\ finished s /\ answers c h s /\ chain cs' (after c h s) (hd_after s) ss'
    | [], _ :: _ => False
    end.

  (** ** What is written for a step *)
  Definition gap_fails (s : hdone) : Prop := exists e, binop Rminus (hd_u s) (heights (hd_after s)) = Exc e.
  Definition exists_map (single : bool) (i : nat) (s : hdone) (ev : list event) (k : kind) : Prop :=
    forall fn, option_of k a = Some fn -> exists m, In (file_name single fn i, m) (files ev) /\ map_of active unit k s m.

  Lemma rows_app : forall e1 e2, rows (e1 ++ e2) = rows e1 ++ rows e2. Proof. intros; apply flat_map_app. Qed.
  Lemma frames_app : forall e1 e2, frames (e1 ++ e2) = frames e1 ++ frames e2. Proof. intros; apply flat_map_app. Qed.
  Lemma files_app : forall e1 e2, files (e1 ++ e2) = files e1 ++ files e2. Proof. intros; apply flat_map_app. Qed.

  Lemma emit_ret : forall single i s o ev r, finished s -> shows s o ->
    emit young sizes unit a single i (hd_after s) o = (ev, r) ->
    rows ev = [row_of total s]
    /\ frames ev = (if hw_netcdf a then [frame_of s] else [])
    /\ (forall n m, In (n, m) (files ev) -> exists k fn, option_of k a = Some fn /\ n = file_name single fn i /\ map_of active unit k s m)
    /\ (forall k, k <> KGap \/ r = Ret tt -> exists_map single i s ev k)
    /\ (r = Ret tt \/ gap_fails s /\ exists e, r = Exc e).
  Proof.
    intros single i s o ev r F -> H. destruct F as (_ & (G1 & _ & _ & G4) & _).
    unfold emit, dump in H. cbn [so_u so_f so_offset so_load so_area so_contact fst snd] in H.
    rewrite G1, G4 in H.
    set (hd := header _ unit) in *. set (rw := mkRow _ _ _ _ _ _ _) in *.
    assert (RW : rw = row_of total s) by reflexivity. clearbody rw. subst rw. set (rw := row_of total s) in *.
    assert (FR : forall X : list event, frames (if hw_netcdf a then [Frame (hd_u s) (forces s) (hd_position s) (hd_load s)
       (count_positive (forces s) / INR (size (sf_grid (hd_before s))))] else []) = if hw_netcdf a then [frame_of s] else []).
    { intros _. destruct (hw_netcdf a); reflexivity. }
    assert (RR : rows (if hw_netcdf a then [Frame (hd_u s) (forces s) (hd_position s) (hd_load s)
       (count_positive (forces s) / INR (size (sf_grid (hd_before s))))] else []) = []) by (destruct (hw_netcdf a); reflexivity).
    assert (FF : files (if hw_netcdf a then [Frame (hd_u s) (forces s) (hd_position s) (hd_load s)
       (count_positive (forces s) / INR (size (sf_grid (hd_before s))))] else []) = []) by (destruct (hw_netcdf a); reflexivity).
    specialize (FR []). set (nc := if hw_netcdf a then _ else _) in *. clearbody nc.
    unfold save in H.
    destruct (hw_contact_fn a) as [f1|] eqn:E1; destruct (hw_pressure_fn a) as [f2|] eqn:E2;
      destruct (hw_displ_fn a) as [f3|] eqn:E3; destruct (hw_gap_fn a) as [f4|] eqn:E4; cbn zeta beta iota in H;
      (destruct (binop Rminus (hd_u s) (heights (hd_after s))) as [d|e] eqn:B; cbn [fst] in H);
      injection H as <- <-;
      (split; [rewrite ?rows_app, RR; reflexivity|]; split; [rewrite ?frames_app, FR; cbn [frames flat_map app]; rewrite ?app_nil_r; reflexivity|];
       rewrite ?files_app, FF; cbn [files flat_map app];
       split; [intros n m HI; cbn [In] in HI;
         repeat match type of HI with _ \/ _ => destruct HI as [HI|HI] end; try contradiction;
         match goal with
         | HI : (_, _) = (_, _) |- _ => injection HI as <- <-
         end;
         first [ exists KContact, f1; split; [exact E1|]; split; [reflexivity|]; reflexivity
               | exists KPressure, f2; split; [exact E2|]; split; [reflexivity|]; eexists; reflexivity
               | exists KDispl, f3; split; [exact E3|]; split; [reflexivity|]; reflexivity
               | exists KGap, f4; split; [exact E4|]; split; [reflexivity|]; exists d; split; [exact B|reflexivity] ]|];
       split; [intros k K fn O; destruct k; cbn [option_of] in O; rewrite ?E1, ?E2, ?E3, ?E4 in O; try discriminate;
         injection O as <-;
         first [ destruct K as [K|K]; [exfalso; apply K; reflexivity|discriminate K]
               | eexists; split; [unfold files; rewrite ?flat_map_app; cbn [flat_map app In]; rewrite ?in_app_iff; cbn [In]; fold (files nc); rewrite ?FF; cbn [In]; tauto |
                   cbn [map_of]; first [reflexivity | eexists; reflexivity | exists d; split; [exact B|reflexivity]]] ]|];
       first [left; reflexivity | right; split; [exists e; exact B|eexists; reflexivity]]).
  Qed.

  Lemma run_ret : forall single cs i h w ev r, run single cs i h w = (ev, r) ->
    exists ss, chain cs h (snd w) ss /\ (r = Ret tt -> List.length ss = List.length cs)
    /\ rows ev = map (row_of total) ss
    /\ frames ev = (if hw_netcdf a then map frame_of ss else [])
    /\ (forall n m, In (n, m) (files ev) -> exists k fn j s, option_of k a = Some fn /\ nth_error ss j = Some s
         /\ n = file_name single fn (i + j) /\ map_of active unit k s m)
    /\ (forall j s k, nth_error ss j = Some s -> k <> KGap \/ r = Ret tt -> exists_map single (i + j) s ev k).
  Proof.
    intros single. induction cs as [|c cs IH]; intros i h w ev r H; cbn [hw_run] in H.
    - injection H as <- <-. exists []. split; [exact I|]. split; [reflexivity|]. split; [reflexivity|].
      split; [destruct (hw_netcdf a); reflexivity|]. split; [intros n m []|]. intros j s k J. destruct j; discriminate.
    - destruct (step c h w) as [w1 [[o h1]|e]] eqn:St.
      2:{ injection H as <- <-. exists []. split; [exact I|]. split; [discriminate|]. split; [reflexivity|].
          split; [destruct (hw_netcdf a); reflexivity|]. split; [intros n m []|]. intros j s k J. destruct j; discriminate. }
      destruct (step_ret _ _ _ _ _ _ St) as (s & Bf & Af & Fi & Sh & An & Hh). rewrite <- Af in H.
      destruct (emit young sizes unit a single i (hd_after s) o) as [e1 r1] eqn:E.
      destruct (emit_ret _ _ _ _ _ _ Fi Sh E) as (Rw & Fr & Fs & Fc & Rr).
      destruct r1 as [[]|e].
      + destruct (run single cs (S i) h1 w1) as [e2 r2] eqn:Rn. injection H as <- <-.
        destruct (IH _ _ _ _ _ Rn) as (ss & Ch & Ln & Rws & Frs & Fls & Flc).
        exists (s :: ss). split; [cbn [chain]; rewrite <- Hh, Af; auto|].
        split; [intros Q; cbn [List.length]; rewrite Ln by exact Q; reflexivity|].
        split; [rewrite rows_app, Rw, Rws; reflexivity|].
        split; [rewrite frames_app, Fr, Frs; destruct (hw_netcdf a); reflexivity|].
        split.
        * intros n m HI. rewrite files_app in HI. apply in_app_or in HI. destruct HI as [HI|HI].
          -- destruct (Fs _ _ HI) as (k & fn & O & N & M). exists k, fn, 0%nat, s. rewrite Nat.add_0_r. auto.
          -- destruct (Fls _ _ HI) as (k & fn & j & t & O & J & N & M). exists k, fn, (S j), t.
             split; [exact O|]. split; [exact J|]. split; [rewrite N; f_equal; lia|exact M].
        * intros [|j] t k J K fn O.
          -- injection J as <-. rewrite Nat.add_0_r. destruct (Fc k (or_intror eq_refl) fn O) as (m & HI & M).
             exists m. split; [rewrite files_app; apply in_or_app; left; exact HI|exact M].
          -- destruct (Flc j t k J K fn O) as (m & HI & M). exists m. rewrite files_app. replace (i + S j)%nat with (S i + j)%nat by lia.
             split; [apply in_or_app; right; exact HI|exact M].
      + injection H as <- <-. exists [s]. split; [split; [exact Bf|]; split; [exact Fi|]; split; [exact An|]; destruct cs; exact I|]. split; [discriminate|].
        split; [exact Rw|]. split; [rewrite Fr; destruct (hw_netcdf a); reflexivity|]. split.
        * intros n m HI. destruct (Fs _ _ HI) as (k & fn & O & N & M). exists k, fn, 0%nat, s. rewrite Nat.add_0_r. auto.
        * intros [|j] t k J K; [|destruct j; discriminate]. injection J as <-. rewrite Nat.add_0_r. apply Fc.
          destruct K as [K|K]; [auto|discriminate].
  Qed.

  (** ** What the chain of steps is *)
  Lemma chain_cons : forall cs h sf s ss, chain cs h sf (s :: ss) ->
    exists c cs', cs = c :: cs' /\ hd_before s = sf /\ finished s /\ answers c h s /\ chain cs' (after c h s) (hd_after s) ss.
  Proof. intros [|c cs] h sf s ss H; [destruct H|]. exists c, cs. split; [reflexivity|exact H]. Qed.

  Lemma chain_finished : forall ss cs h sf, chain cs h sf ss -> forall s, In s ss -> finished s.
  Proof.
    induction ss as [|t ss IH]; intros cs h sf H s [].
    - subst t. destruct (chain_cons _ _ _ _ _ H) as (c & cs' & _ & _ & F & _). exact F.
    - destruct (chain_cons _ _ _ _ _ H) as (c & cs' & _ & _ & _ & _ & G). eapply IH; eauto.
  Qed.
  Lemma chain_same : forall ss cs h sf, chain cs h sf ss -> forall s, In s ss ->
    same_topography (hd_before s) sf /\ same_topography (hd_after s) sf
    /\ (plastic = false -> hd_before s = sf /\ hd_after s = sf).
  Proof.
    induction ss as [|t ss IH]; intros cs h sf H s [].
    - subst t. destruct (chain_cons _ _ _ _ _ H) as (c & cs' & _ & B & (_ & T & E & _) & _). subst sf.
      split; [apply same_refl|]. split; [exact T|]. auto.
    - destruct (chain_cons _ _ _ _ _ H) as (c & cs' & _ & B & (_ & T & E & _) & _ & G). subst sf.
      destruct (IH _ _ _ G s H0) as (P & Q & U). split; [eapply same_trans; eauto|]. split; [eapply same_trans; eauto|].
      intros N. rewrite <- (E N). apply U. exact N.
  Qed.
  Lemma chain_first : forall ss cs h sf, chain cs h sf ss -> forall s, nth_error ss 0 = Some s -> hd_before s = sf.
  Proof.
    intros [|t ss] cs h sf H s N; [discriminate|]. injection N as <-.
    destruct (chain_cons _ _ _ _ _ H) as (c & cs' & _ & B & _). exact B.
  Qed.
  Lemma chain_next : forall ss cs h sf, chain cs h sf ss -> forall i s t, nth_error ss i = Some s ->
    nth_error ss (S i) = Some t -> hd_before t = hd_after s.
  Proof.
    induction ss as [|x ss IH]; intros cs h sf H i s t N M; [destruct i; discriminate|].
    destruct (chain_cons _ _ _ _ _ H) as (c & cs' & _ & _ & _ & _ & G). destruct i as [|i].
    - injection N as <-. cbn [nth_error] in M. eapply chain_first; [exact G|]. exact M.
    - cbn [nth_error] in N. change (nth_error ss (S i) = Some t) in M. eapply IH; eauto.
  Qed.
  Lemma chain_pressure : forall ss cs h sf, chain cs h sf ss -> forall i p s, nth_error cs i = Some (Pressure p) ->
    nth_error ss i = Some s -> answers (Pressure p) [] s.
  Proof.
    induction ss as [|x ss IH]; intros cs h sf H i p s N M; [destruct i; discriminate|].
    destruct (chain_cons _ _ _ _ _ H) as (c & cs' & -> & _ & _ & A & G). destruct i as [|i].
    - injection N as ->. injection M as ->. exact A.
    - eapply IH; eauto.
  Qed.
  Lemma chain_auto : forall ss cs l sf, chain cs (sort_entries l) sf ss -> (forall c, In c cs -> c = Next) ->
    forall i s, nth_error ss i = Some s -> answers Next (sort_entries (l ++ map entry_of (firstn i ss))) s.
  Proof.
    induction ss as [|x ss IH]; intros cs l sf H N i s M; [destruct i; discriminate|].
    destruct (chain_cons _ _ _ _ _ H) as (c & cs' & -> & _ & _ & A & G). rewrite (N c (or_introl eq_refl)) in *.
    destruct i as [|i].
    - injection M as <-. cbn [firstn map]. rewrite app_nil_r. exact A.
    - cbn [firstn map]. cbn [after] in G. rewrite sort_snoc in G. specialize (IH _ _ _ G (fun c I => N c (or_intror I)) i s M).
      rewrite <- app_assoc in IH. exact IH.
  Qed.

  Lemma count_nonneg : forall f, 0 <= count_positive f.
  Proof.
    intros f. unfold count_positive, asum. apply Rsum_nonneg. intros k _. unfold flat, amap. cbn [a_val a_shape].
    destruct (Rlt_dec 0 _); lra.
  Qed.

  Lemma chain_explains : forall cs sf ss, chain cs [] sf ss -> hw_explains solver a sb total sf cs ss.
  Proof.
    intros cs sf ss H. pose proof (chain_finished _ _ _ _ H) as F. pose proof (chain_same _ _ _ _ H) as T.
    assert (PL : plastic = false <-> hw_hardness a = None).
    { unfold is_plastic. destruct (hw_hardness a); cbn; split; congruence. }
    split.
    - intros s Is. destruct (F s Is) as (S & _). destruct (T s Is) as (B & _). rewrite <- S. f_equal.
      rewrite (hardness_same _ _ _ B). unfold hardness_at, is_plastic. destruct (hw_hardness a); reflexivity.
    - intros s Is. destruct (F s Is) as (_ & _ & _ & _ & X). exact X.
    - intros i p s N M. exact (chain_pressure _ _ _ _ H i p s N M).
    - intros N i s M. change [] with (sort_entries []) in H. pose proof (chain_auto _ _ _ _ H N i s M) as A. cbn [app] in A.
      assert (Is : In s ss) by (eapply nth_error_In; exact M).
      destruct A as (A1 & A2 & A3 & top & bot & A4 & A5 & A6). split; [exact A1|]. split; [exact A2|]. split; [exact A3|].
      exists top, bot. split; [apply amax_spec; exact A4|]. split; [apply amin_spec; exact A5|]. intros NP.
      destruct (T s Is) as ((G1 & _) & _). rewrite A6, position_pipeline, G1.
      assert (Q : map (fun t => (hd_position t, contact_points (forces t) / INR (size (sf_grid sf)))) (firstn i ss)
        = combine (map e_disp (map entry_of (firstn i ss))) (map e_area (map entry_of (firstn i ss)))).
      { rewrite !map_map. assert (X : forall t, In t (firstn i ss) -> sf_grid (hd_before t) = sf_grid sf).
        { intros t It. apply (T t). rewrite <- (firstn_skipn i ss). apply in_or_app. left. exact It. }
        revert X. generalize (firstn i ss). induction l as [|t l IH]; intros X; [reflexivity|]. cbn [map combine].
        rewrite IH by (intros u U; apply X; right; exact U). f_equal. unfold entry_of. cbn [e_disp e_area].
        rewrite (X t (or_introl eq_refl)). reflexivity. }
      rewrite Q. apply (next_chosen top _ bot (size (sf_grid sf)) (Some (as_history (map entry_of (firstn i ss)))) NP).
      cbn [as_history h_areas h_disps]. split; [rewrite !map_length; reflexivity|].
      intros x X. rewrite map_map in X. apply in_map_iff in X. destruct X as (t & <- & It). unfold entry_of. cbn [e_area].
      apply Rmult_le_pos; [apply count_nonneg|]. apply Rlt_le, Rinv_0_lt_compat, lt_0_INR.
      assert (sf_grid (hd_before t) = sf_grid sf) as ->; [|exact NP].
      apply (T t). rewrite <- (firstn_skipn i ss). apply in_or_app. left. exact It.
    - intros s Is. destruct (T s Is) as ((G1 & _ & _ & G2) & (G3 & _ & _ & G4) & _). auto.
    - intros E s Is. apply (T s Is). apply PL. exact E.
    - exact (chain_first _ _ _ _ H).
    - exact (chain_next _ _ _ _ H).
    - intros E s Is. destruct (F s Is) as (_ & _ & _ & P & _). apply P.
      destruct plastic eqn:Q; [reflexivity|]. exfalso. apply E, PL. reflexivity.
  Qed.
End Steps.
