(** * Proofs about the pipeline *)
From Coq Require Import Reals ZArith Lia Lra List Arith Bool String Permutation.
From Verif Require Import Py FFT_Base HalfSpace_Model Free_Model Systems_Model Factory_Model Pipeline_Model Pipeline_Spec.
From Coq Require Import List.
Import ListNotations.
Local Open Scope R_scope.

Lemma bindRet : forall A B (x : res A) (f : A -> res B) b,
  bind x f = Ret b -> exists a, x = Ret a /\ f a = Ret b.
Proof. intros A B [a|e] f b H; [exists a; auto|discriminate]. Qed.

(** ** The minimisation *)
Lemma proxy_cases : forall sb s y, exists y', 
  minimize_proxy sb s y = (y', match s with
    | Exc e => Exc e
    | Ret r => if o_success r then match sb_check sb (o_jac r) with Ret _ => Ret r | Exc e => Exc e end else Ret r
    end).
Proof.
  intros sb s y. unfold minimize_proxy, mbind, upd, lift, mret. destruct s as [r|e]; [|eexists; reflexivity].
  destruct (o_success r); [|eexists; reflexivity]. destruct (sb_check sb (o_jac r)); eexists; reflexivity.
Qed.

Section Run.
  Variable solver : substrate -> surface -> option R -> solver_args -> res oresult.
  Variable sb : substrate.
  Variable sizes : list R.
  Variable plastic resets : bool.
  Variable pentol : R.
  Variable maxiter : nat.
  Variable callback : list output -> output -> res unit.
  Notation proxy := (proxy solver sb plastic).
  Notation calc := (contact_calculation solver sb sizes plastic pentol maxiter).
  Notation next := (next_contact_step solver sb sizes plastic resets pentol maxiter).
  Notation calculation := (calculation solver sb sizes plastic resets pentol maxiter).
  Notation run := (run solver sb sizes plastic resets pentol maxiter callback).

  (** Surfaces that differ in the plastic displacement only. *)
  Definition same_topography (a b : surface) : Prop :=
    sf_grid a = sf_grid b /\ sf_base a = sf_base b /\ sf_hardness a = sf_hardness b /\ sf_area a = sf_area b.

  Definition hardness_at (sf : surface) : option R :=
    if plastic then Some (sf_hardness sf * sf_area sf) else None.

  Definition plastic_change (before after : surface) (opt : oresult) : Prop :=
    (o_success opt = false -> after = before)
    /\ (o_success opt = true -> exists g, compute_gap sb before (o_x opt) (o_offset opt) = Ret g
        /\ forall x y, a_val (heights after) x y = a_val (heights before) x y + (if o_plastic opt x y then a_val g x y else 0)).

  Lemma proxy_ret : forall a w w' opt, proxy a w = (w', Ret opt) ->
    solver sb (snd w) (hardness_at (snd w)) a = Ret opt
    /\ same_topography (snd w') (snd w) /\ (plastic = false -> snd w' = snd w)
    /\ (plastic = true -> plastic_change (snd w) (snd w') opt).
  Proof.
    intros a [y sf] w' opt H. unfold Pipeline_Model.proxy in H. unfold hardness_at. cbn [snd]. destruct plastic.
    - unfold plastic_minimize_proxy in H.
      destruct (proxy_cases sb (solver sb sf (Some (sf_hardness sf * sf_area sf)) a) y) as [y' P]. rewrite P in H. clear P.
      destruct (solver sb sf (Some (sf_hardness sf * sf_area sf)) a) as [r|e]; [|discriminate].
      assert (G : forall R', (if o_success r
         then match compute_gap sb sf (o_x r) (o_offset r) with
              | Exc e => (y', sf, Exc e)
              | Ret g => (y', mkSurface (sf_grid sf) (sf_base sf)
                   (fun i j => sf_plastic sf i j + (if o_plastic r i j then a_val g i j else 0))
                   (sf_hardness sf) (sf_area sf), Ret r)
              end
         else (y', sf, Ret r)) = R' -> R' = (w', Ret opt) ->
         Ret r = Ret opt /\ same_topography (snd w') sf /\ (true = false -> snd w' = sf) /\ (true = true -> plastic_change sf (snd w') opt)).
      { intros R' E E'. subst R'. destruct (o_success r) eqn:S.
        - destruct (compute_gap sb sf (o_x r) (o_offset r)) as [g|e] eqn:CG; [|discriminate]. injection E' as <- <-. cbn [snd].
          split; [reflexivity|]. split; [repeat split|]. split; [discriminate|]. intros _. split; [intro; congruence|].
          intros _. exists g. split; [exact CG|]. intros i j. cbn. lra.
        - injection E' as <- <-. cbn [snd]. split; [reflexivity|]. split; [repeat split|]. split; [auto|]. intros _.
          split; [auto|]. intro; congruence. }
      destruct (o_success r) eqn:S.
      + destruct (sb_check sb (o_jac r)); [|discriminate]. rewrite S in *. eapply G; [reflexivity|exact H].
      + rewrite S in *. eapply G; [reflexivity|exact H].
    - destruct (proxy_cases sb (solver sb sf None a) y) as [y' P]. rewrite P in H. clear P.
      destruct (solver sb sf None a) as [r|e]; [|discriminate].
      assert (E : w' = (y', sf) /\ r = opt).
      { destruct (o_success r); [destruct (sb_check sb (o_jac r)); [|discriminate]|]; injection H as <- <-; auto. }
      destruct E as [-> ->]. cbn [snd]. split; [reflexivity|]. split; [repeat split|]. split; [auto|discriminate].
  Qed.

  (** What a finished calculation is. *)
  Definition outcome (off force : option R) (s : done) : Prop :=
    exists n0 n1 d,
    dn_args s = mkSa off force pentol maxiter
    /\ solver sb (dn_before s) (hardness_at (dn_before s)) (dn_args s) = Ret (dn_opt s)
    /\ same_topography (dn_after s) (dn_before s)
    /\ ((plastic = false -> dn_after s = dn_before s) /\ (plastic = true -> plastic_change (dn_before s) (dn_after s) (dn_opt s)))
    /\ a_shape (o_jac (dn_opt s)) = [n0; n1]
    /\ head_slice [n0; n1] (o_x (dn_opt s)) = Ret (out_disp (dn_out s))
    /\ binop Rminus (out_disp (dn_out s)) (heights (dn_after s)) = Ret d
    /\ out_gap (dn_out s) = amap (fun z => if Rlt_dec (z - o_offset (dn_opt s)) 0 then 0 else z - o_offset (dn_opt s)) d
    /\ out_pressure (dn_out s) = amap (fun f => f / sb_area sb) (o_jac (dn_opt s))
    /\ out_contact (dn_out s) = positive_zone (o_jac (dn_opt s))
    /\ out_offset (dn_out s) = o_offset (dn_opt s)
    /\ out_load (dn_out s) = asum (o_jac (dn_opt s)) / fold_right Rmult 1 sizes
    /\ out_area (dn_out s) = count_positive (o_jac (dn_opt s)) / INR (size (sf_grid (dn_before s))).
  Definition mean_gap (s : done) : R :=
    amean (out_disp (dn_out s)) - amean (heights (dn_before s)) - o_offset (dn_opt s).
  Definition no_history : history := mkHist [] [] [] [] [].
  Definition extend (h : option history) (s : done) : history :=
    let h0 := match h with Some h0 => h0 | None => no_history end in
    mkHist (h_disps h0 ++ [out_offset (dn_out s)]) (h_gaps h0 ++ [mean_gap s]) (h_press h0 ++ [out_load (dn_out s)])
           (h_areas h0 ++ [out_area (dn_out s)]) (h_conv h0 ++ [o_success (dn_opt s)]).

  Lemma calc_ret : forall off force h w w' o h', calc off force h w = (w', Ret (o, h')) ->
    exists s, dn_before s = snd w /\ dn_after s = snd w' /\ dn_out s = o /\ outcome off force s /\ h' = extend h s.
  Proof.
    intros off force h w w' o h' H. unfold contact_calculation in H.
    destruct (proxy (mkSa off force pentol maxiter) w) as [w1 [opt|e]] eqn:P; [|discriminate].
    injection H as <- H. destruct (proxy_ret _ _ _ _ P) as (S & T & E & E2).
    destruct (a_shape (o_jac opt)) as [|n0 [|n1 [|? ?]]] eqn:SH; try discriminate.
    apply bindRet in H. destruct H as (disp & D & H). apply bindRet in H. destruct H as (d & B & H). injection H as <- <-.
    eexists (mkDone (snd w) (snd w1) (mkSa off force pentol maxiter) opt _). split; [reflexivity|]. split; [reflexivity|].
    split; [reflexivity|]. split; [|reflexivity].
    exists n0, n1, d. cbn [dn_before dn_after dn_args dn_opt dn_out out_disp out_gap out_pressure out_contact out_offset out_load out_area]. repeat (split; [assumption || reflexivity || (split; assumption)|]). reflexivity.
  Qed.

  Definition aentry_max (a : arr) (m : R) := amax a = Ret m.

  (** A step belongs to a command, given the surface and the history. *)
  Definition step_of (c : command) (h : option history) (sf : surface) (s : done) : Prop :=
    match c with
    | AtOffset o => dn_before s = sf /\ outcome (Some o) None s
    | AtForce f => dn_before s = sf /\ outcome None (Some f) s
    | Automatic => dn_before s = reset_plastic resets sf
        /\ exists top bot, amax (heights (dn_before s)) = Ret top /\ amin (heights (dn_before s)) = Ret bot
        /\ outcome (Some (next_displacement top (amean (heights (dn_before s))) bot (size (sf_grid (dn_before s))) h)) None s
    end.

  Lemma calculation_ret : forall c h w w' o h', calculation c h w = (w', Ret (o, h')) ->
    exists s, dn_after s = snd w' /\ dn_out s = o /\ step_of c h (snd w) s /\ h' = extend h s.
  Proof.
    intros [off|f|] h w w' o h' H; cbn [Pipeline_Model.calculation step_of] in *.
    - destruct (calc_ret _ _ _ _ _ _ _ H) as (s & A & B & C & D & E). exists s. auto 6.
    - destruct (calc_ret _ _ _ _ _ _ _ H) as (s & A & B & C & D & E). exists s. auto 6.
    - unfold next_contact_step in H. cbn [fst snd] in H.
      destruct (amax (heights (reset_plastic resets (snd w)))) as [top|e] eqn:T; [|discriminate].
      cbn [bind] in H. destruct (amin (heights (reset_plastic resets (snd w)))) as [bot|e] eqn:Bt; [|discriminate].
      cbn [bind] in H. destruct (calc_ret _ _ _ _ _ _ _ H) as (s & A & B & C & D & E). cbn [snd] in A.
      exists s. split; [exact B|]. split; [exact C|]. split; [|exact E]. split; [exact A|].
      exists top, bot. rewrite A. auto.
  Qed.

  Fixpoint steps_of (cs : list command) (h : option history) (sf : surface) (ss : list done) : Prop :=
    match cs, ss with
    | _, [] => True
    | c :: cs', s :: ss' => step_of c h sf s /\ steps_of cs' (Some (extend h s)) (dn_after s) ss'
    | [], _ :: _ => False
    end.
  Definition extend_all (h : option history) (ss : list done) : option history :=
    fold_left (fun h s => Some (extend h s)) ss h.

  Lemma run_spec : forall cs h calls w w' calls' r, run cs h calls w = (w', calls', r) ->
    exists ss, steps_of cs h (snd w) ss /\ calls' = calls ++ map dn_out ss
      /\ (forall h', r = Ret h' -> List.length ss = List.length cs /\ h' = extend_all h ss).
  Proof.
    induction cs as [|c cs IH]; intros h calls w w' calls' r H; cbn [Pipeline_Model.run] in H.
    - injection H as <- <- <-. exists []. rewrite app_nil_r. split; [exact I|]. split; [reflexivity|].
      intros h' E. injection E as <-. auto.
    - destruct (calculation c h w) as [w1 [[o h1]|e]] eqn:C.
      + destruct (calculation_ret _ _ _ _ _ _ C) as (s & A & B & D & E). subst h1. destruct (callback calls o) as [u|e].
        * destruct (IH _ _ _ _ _ _ H) as (ss & S1 & S2 & S3). exists (s :: ss). rewrite <- A in S1.
          split; [split; [exact D|exact S1]|]. split; [rewrite S2, <- app_assoc; cbn; rewrite B; reflexivity|].
          intros h' R. destruct (S3 h' R) as [L F]. cbn. split; [rewrite L; reflexivity|exact F].
        * injection H as <- <- <-. exists [s]. split; [split; [exact D|destruct cs; exact I]|]. split; [cbn; rewrite B; reflexivity|].
          intros h' R. discriminate.
      + injection H as <- <- <-. exists []. rewrite app_nil_r. split; [destruct cs; exact I|]. split; [reflexivity|].
        intros h' R. discriminate.
  Qed.

  Lemma extend_all_some : forall ss h, extend_all (Some h) ss = Some
    (mkHist (h_disps h ++ map (fun s => out_offset (dn_out s)) ss) (h_gaps h ++ map mean_gap ss)
            (h_press h ++ map (fun s => out_load (dn_out s)) ss) (h_areas h ++ map (fun s => out_area (dn_out s)) ss)
            (h_conv h ++ map (fun s => o_success (dn_opt s)) ss)).
  Proof.
    induction ss as [|s ss IH]; intros h.
    - cbn. rewrite !app_nil_r. destruct h; reflexivity.
    - unfold extend_all. cbn [fold_left]. change (extend_all (Some (extend (Some h) s)) ss = Some
        (mkHist (h_disps h ++ map (fun s => out_offset (dn_out s)) (s :: ss)) (h_gaps h ++ map mean_gap (s :: ss))
            (h_press h ++ map (fun s => out_load (dn_out s)) (s :: ss)) (h_areas h ++ map (fun s => out_area (dn_out s)) (s :: ss))
            (h_conv h ++ map (fun s => o_success (dn_opt s)) (s :: ss)))).
      rewrite IH. unfold extend. cbn [h_disps h_gaps h_press h_areas h_conv map]. rewrite <- !app_assoc. reflexivity.
  Qed.
  Lemma extend_all_none : forall ss h, extend_all None ss = Some h ->
    h = mkHist (map (fun s => out_offset (dn_out s)) ss) (map mean_gap ss) (map (fun s => out_load (dn_out s)) ss)
          (map (fun s => out_area (dn_out s)) ss) (map (fun s => o_success (dn_opt s)) ss).
  Proof.
    intros [|s ss] h H; [discriminate|]. unfold extend_all in H. cbn [fold_left] in H.
    change (extend_all (Some (extend None s)) ss = Some h) in H. rewrite extend_all_some in H. injection H as <-. reflexivity.
  Qed.

  Lemma steps_nth : forall cs h sf ss, steps_of cs h sf ss -> forall i s, nth_error ss i = Some s ->
    exists c, nth_error cs i = Some c
      /\ step_of c (extend_all h (firstn i ss)) (match i with O => sf | S j => match nth_error ss j with Some t => dn_after t | None => sf end end) s.
  Proof.
    induction cs as [|c cs IH]; intros h sf [|s0 ss] H i s E; try (destruct i; discriminate); [destruct H|].
    destruct H as [H1 H2]. destruct i as [|i]; cbn in E.
    - injection E as <-. exists c. split; [reflexivity|exact H1].
    - destruct (IH _ _ _ H2 i s E) as (c' & N & Q0). exists c'. split; [exact N|].
      cbn [firstn extend_all fold_left]. fold (extend_all (Some (extend h s0)) (firstn i ss)).
      destruct i as [|i]; [exact Q0|]. cbn [nth_error].
      assert (X : exists t, nth_error ss i = Some t).
      { destruct (nth_error ss i) eqn:Q; [eexists; reflexivity|]. apply nth_error_None in Q.
        assert (nth_error ss (S i) <> None) by congruence. apply nth_error_Some in H. lia. }
      destruct X as [t X]. rewrite X in Q0 |- *. exact Q0.
  Qed.
End Run.
