(** * Runs of the solver with doubles, executed *)
From Coq Require Import List Bool ZArith.
From Coq Require Import Floats.SpecFloat.
From Verif Require Import Float_Model Float_Spec Float_IEEE Float_Double.
Import ListNotations.

(** Two points; compliance matrix ((3, 1), (1, 3)), as in Float_Witness.v. *)
Definition disp_mat (p q : bool) : D64 := if Bool.eqb p q then dbl (-3) 0 else dbl (-1) 0.
Definition force_mat (p q : bool) : D64 := if Bool.eqb p q then dbl (-3) (-3) else dbl 1 (-3).
Definition times (m : bool -> bool -> D64) (f : bool -> D64) (p : bool) : D64 :=
  asum AD (map (fun q => amul AD (m p q) (f q)) [true; false]).
Definition cfgD (ext : option D64) (u0 : option (bool -> D64)) : fcfg (F:=D64) (P:=bool) :=
  mkFcfg [true; false] (fun _ => true) (fun _ => false) (fun p => if p then dbl 1 0 else dbl (-5) 0)
    (times disp_mat) (times force_mat)
    None ext (dbl 0 0) u0 None (dbl 1 (-2)) (dbl 1 (-2)) (dbl 1 (-2)) (dbl 0 0) (dbl 0 0) 10 2 (fun _ _ _ => None).
Definition elD := cfgD None None.
Definition loadD := cfgD (Some (dbl 1 (-2))) (Some (fun _ => dbl 2 0)).

Definition seen (r : foutcome (F:=D64) (P:=bool) + fexn) :=
  match r with
  | inl o => inl ((o_success o, o_str o), (raw (o_x o true), raw (o_x o false)),
      (raw (o_jac o true), raw (o_jac o false)), (o_active o true, o_active o false), raw (o_offset o), raw (o_tau o))
  | inr e => inr e
  end.
Lemma seen_inl : forall r a x j b off tau, seen r = inl (a, x, j, b, off, tau) ->
  exists o, r = inl o /\ (o_success o, o_str o) = a
    /\ raw (o_x o true) = fst x /\ raw (o_x o false) = snd x
    /\ raw (o_jac o true) = fst j /\ raw (o_jac o false) = snd j /\ o_active o true = fst b /\ o_active o false = snd b
    /\ raw (o_offset o) = off /\ raw (o_tau o) = tau.
Proof.
  intros [o|e] a x j b off tau H; [|discriminate]. unfold seen in H.
  exists o. split; [reflexivity|]. inversion H. subst. repeat (split; [reflexivity|]). reflexivity.
Qed.
Lemma elD_run : seen (frun AD elD 4) =
  inl ((true, FCg), (S754_finite false 4503599627370496 (-52), S754_finite false 6004799503160661 (-54)),
       (S754_finite false 6004799503160661 (-54), S754_zero true), (true, false), S754_zero false,
       S754_finite false 6004799503160661 (-54)).
Proof. vm_compute. reflexivity. Qed.
Lemma loadD_run : seen (frun AD loadD 4) =
  inl ((true, FCg), (S754_finite false 6755399441055744 (-53), S754_finite false 4503599627370496 (-54)),
       (S754_finite false 4503599627370496 (-54), S754_zero true), (true, false), S754_finite true 4503599627370496 (-54),
       S754_zero false).
Proof. vm_compute. reflexivity. Qed.
Lemma matrixD : forall ext u0, by_matrix AD (cfgD ext u0) disp_mat.
Proof. intros ext u0 f p _. apply (l_sum AD finD double_laws). Qed.
Lemma countD : forall ext u0 n, n <= length (k_pts (cfgD ext u0)) -> finD (anat AD n).
Proof.
  intros ext u0 n H. cbn [cfgD k_pts length] in H. destruct n as [|[|[|n]]]; [| | |exfalso].
  1-3: vm_compute; exact I.
  do 2 apply le_S_n in H. inversion H.
Qed.
