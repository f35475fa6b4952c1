(** Degenerate inputs, and runs that cannot converge. *)
From Coq Require Import Reals Lra List Bool Arith Lia.
From Verif Require Import CCG_Model CCG_Real CCG_Spec CCG_Proofs CCG_Conv CCG_Results CCG_Results2.
Import ListNotations.
Local Open Scope R_scope.

Section Misc.
  Context {P : Type}.
  Notation K := (ROps P).

  Lemma zero_iterations (a : args R P) k hsum n : a_maxiter a = Some O ->
    exists e, solve K a k hsum n = Raise e.
  Proof.
    intros H. unfold solve, solve_trace. destruct (a_distributed a && a_plain_array a); simpl; eauto.
    destruct (choose_pentol K a hsum n); simpl; eauto.
    destruct (negb _); simpl; eauto. rewrite H. simpl. eauto.
  Qed.

  Lemma array_hardness_iter (c : @cfg R P) H s fu : c_hard c = Some (HArray H) -> iter K c s <> Ok fu.
  Proof.
    intros Hh Hi. apply iter_inv in Hi. destruct Hi as (h&mp&_&Hm&_). unfold max_pres in Hm.
    rewrite Hh in Hm. discriminate.
  Qed.
  Lemma array_hardness (c : @cfg R P) H n r : c_hard c = Some (HArray H) -> ccg c n <> Ok r.
  Proof.
    intros Hh Hr. apply (run_exit c (fun _ => True)) in Hr; auto.
    destruct Hr as (s&fu&_&Hi&_). eapply array_hardness_iter; eauto.
  Qed.

  Lemma flat_force_control (a : args R P) k hsum n :
    a_distributed a && a_plain_array a = false ->
    a_offset a = None -> a_pentol a = None -> a_rms a = 0 -> 
    solve K a k hsum n = Raise TypeError.
  Proof.
    intros Hd Ho Hp Hr. unfold solve, solve_trace. rewrite Hd. unfold choose_pentol.
    rewrite Hp, Ho, Hr. simpl. unfold Rdiv. rewrite Rmult_0_l. replace (Reqb 0 0) with true by (symmetry; apply Reqb_true; auto). reflexivity.
  Qed.

  (** In displacement control an iteration that is not the first one and ends
      with zero total force never converges. *)
  Lemma zero_force_never_converges (c : @cfg R P) n r : offset_control c -> ccg c n = Ok r ->
    (2 <= x_nit r)%nat -> x_success r = true -> total c r <> 0.
  Proof.
    intros Ho Hr Hn Hs.
    apply (run_exit c (fun s => (1 <= s_nit s)%nat -> exists l, s_lasttf s = Some l)) in Hr.
    - destruct Hr as (s&fu&HI&Hi&[[Hc ->]| ->]); [|discriminate]. simpl in Hn.
      apply iter_inv in Hi. destruct Hi as (h&mp&_&_&_&Ef&_&_&_&_&_&En&_&_&_&_&H2).
      rewrite (total_tot _ _ (s_f (fu_state fu))) by auto. rewrite Ef.
      destruct (conv_inv c _ _ _ H2 Hc) as (mp'&_&_&_&_&_&_&H).
      rewrite En in Hn. destruct HI as [l Hl]; [lia|]. destruct (H Ho l Hl). auto.
    - intros s fu _ Hi _. apply iter_inv in Hi. destruct Hi as (h&mp&_&_&_&_&_&_&_&_&_&_&_&_&_&_&H2).
      unfold second_half in H2. destruct (max_pres K c h); [|discriminate]. injection H2 as <-. simpl. eauto.
    - simpl. lia.
  Qed.
End Misc.
