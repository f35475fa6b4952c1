(** Executed runs of the solver with their log entries. *)
From Coq Require Import Reals Lra List Bool Arith QArith Qreals Lia.
From Verif Require Import CCG_Model CCG_Real CCG_Spec CCG_Hom CCG_Q CCG_Witness SolverLog_Proofs.
Import ListNotations.

Section EventHom.
  Context {F1 F2 P : Type}.
  Variable K1 : Ops F1 P.
  Variable K2 : Ops F2 P.
  Variable phi : F1 -> F2.
  Hypothesis H : is_hom K1 K2 phi.
  Variable c1 : @cfg F1 P.
  Variable c2 : @cfg F2 P.
  Hypothesis C : cfg_hom phi c1 c2.
  Definition map_event (e : @event F1 P) : @event F2 P :=
    match e with
    | ELog l b r => ELog l b (map_rep phi r)
    | ECallback it f r => ECallback it (lift phi f) (map_rep phi r)
    end.
  Lemma loop_events n : forall fuel s last,
    fst (loop K2 c2 n fuel (map_state phi s) (option_map (map_full phi) last)) =
    map map_event (fst (loop K1 c1 n fuel s last)).
  Proof.
    induction fuel; intros s last; cbn [loop].
    - destruct last; reflexivity.
    - rewrite (iter_hom K1 K2 phi H c1 c2 C). destruct (iter K1 c1 s) as [fu|e]; [|reflexivity].
      cbn [map_ok]. change (fu_conv (map_full phi fu)) with (fu_conv fu). destruct (fu_conv fu); [reflexivity|].
      specialize (IHfuel (fu_state fu) (Some fu)). cbn [option_map] in IHfuel.
      change (fu_state (map_full phi fu)) with (map_state phi (fu_state fu)).
      change (fu_rep (map_full phi fu)) with (map_rep phi (fu_rep fu)).
      destruct (loop K2 c2 n fuel (map_state phi (fu_state fu)) (Some (map_full phi fu))) as [e2 r2].
      destruct (loop K1 c1 n fuel (fu_state fu) (Some fu)) as [e1 r1].
      cbn [fst] in *. rewrite IHfuel, !map_app. cbn [map_state s_nit s_str s_f].
      f_equal. f_equal. destruct (s_nit (fu_state fu) <? n)%nat; reflexivity.
  Qed.
  Lemma run_events n : fst (run_trace K2 c2 n) = map map_event (fst (run_trace K1 c1 n)).
  Proof. unfold run_trace. rewrite (init_hom K1 K2 phi H c1 c2 C). apply (loop_events n n _ None). Qed.
End EventHom.

Definition norm (r : @report Q) : @report Q :=
  mkReport (r_it r) (r_str r) (r_Acontact r) (r_Acg r) (Qred (r_total r)) (Qred (r_off r))
    (Qred (r_maxpen r)) (Qred (r_maxpres r)) (Qred (r_padpres r)) (option_map Qred (r_maxdu r)) (Qred (r_tau r))
    (r_Afl r) (Qred (r_ms r)) (r_nc r) (Qred (r_mixfac r)).
Lemma norm_R r : map_rep Q2R (norm r) = map_rep Q2R r.
Proof. unfold map_rep, norm. cbn. rewrite !Q2R_red. destruct (r_maxdu r); cbn; rewrite ?Q2R_red; reflexivity. Qed.

Definition logs_of {P} (evs : list (@event Q P)) : list (label * bool * @report Q) :=
  flat_map (fun e => match e with ELog l b r => [(l, b, norm r)] | _ => [] end) evs.
Definition to_R (x : label * bool * @report Q) : label * bool * @report R :=
  (fst x, map_rep Q2R (snd x)).
Lemma logs_R {P} (evs : list (@event Q P)) : logs (map (map_event Q2R) evs) = map to_R (logs_of evs).
Proof.
  induction evs as [|[l b r|it f r] evs IH]; [reflexivity| |exact IH].
  cbn. unfold logs, logs_of in IH. rewrite IH. f_equal. unfold to_R. cbn [fst snd]. rewrite norm_R. reflexivity.
Qed.

Section Exec.
  Context {P : Type}.
  Variable eqb : P -> P -> bool.
  Hypothesis eqb_eq : forall a b, eqb a b = true -> a = b.
  Variable pts : list P.
  Definition outcome (b : @qprob P) n :=
    (logs_of (fst (run_trace (QOps eqb pts) (qcfg pts b) n)),
     match snd (run_trace (QOps eqb pts) (qcfg pts b) n) with
     | Ok r => Some (x_success r, x_nit r, map (fun p => Qred (x_jac r p)) pts) | _ => None end).
  Lemma exec_logs b n ls s k js : outcome b n = (ls, Some (s, k, js)) ->
    exists evs r, run_trace (ROps P) (rcfg_of pts b) n = (evs, Ok r) /\ logs evs = map to_R ls
      /\ x_success r = s /\ x_nit r = k /\ map (x_jac r) pts = map Q2R js.
  Proof.
    unfold outcome. intros H.
    pose proof (run_events (QOps eqb pts) (ROps P) Q2R (QR_hom eqb eqb_eq pts) _ _ (cfg_of_hom pts b) n) as E.
    destruct (run_trace (QOps eqb pts) (qcfg pts b) n) as [ev o] eqn:T. cbn [fst snd] in *.
    destruct o as [r|e]; [|discriminate].
    assert (R1 : run (QOps eqb pts) (qcfg pts b) n = Ok r) by (unfold run; rewrite T; reflexivity).
    apply (ccg_exec eqb eqb_eq) in R1. unfold ccg, run in R1.
    destruct (run_trace (ROps P) (rcfg_of pts b) n) as [ev' o']. cbn [fst snd] in *. subst ev' o'.
    eexists _, _. split; [reflexivity|]. rewrite logs_R. injection H as <- <- <- <-.
    repeat split; auto. rewrite map_map. apply map_ext. intros p. rewrite Q2R_red. reflexivity.
  Qed.
End Exec.

(** An elastic-plastic run: one conjugate gradients step, then mixing. *)
Definition L1 : @qprob bool :=
  mkProb all none (m2 1 (1#2) 1) (m2 (4#3) (-2#3) (4#3)) (v2 1 1) (Some (1#10)) None 0
    (Some (v2 (-1#20) (-1#20))) (1#1000) (1#1000) (1#1000).
Definition L1c : @cfg R bool := rcfg_of pts2 L1.
(** An elastic run that loses a point in its last iteration. *)
Definition L2 : @qprob bool :=
  mkProb all none (m2 1 (3#4) 1) (m2 (16#7) (-12#7) (16#7)) (v2 3 (13#12)) None None 0
    (Some (v2 (-1) (-4#3))) 100 100 100.
Definition L2c : @cfg R bool := rcfg_of pts2 L2.
