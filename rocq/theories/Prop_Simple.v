(** * C81: the solver of the examples and the solver of the library

    [simple_solve] models [constrained_conjugate_gradients] of
    [/repo/examples/simple_polonsky_keer.py], [ccg (library_call ...)] the call of
    the library's function of the same name with the same arguments. *)
From Coq Require Import Reals Lra List Bool Arith Lia QArith Qreals.
From Verif Require Import Py CCG_Model CCG_Real CCG_Spec CCG_Q CCG_Witness Simple_Model Simple_Proofs.
Import ListNotations.
Local Open Scope R_scope.

(** The surface has a point. *)
Definition has_surface {P} (e : scall P) : Prop := exists p, In p (e_pts e) /\ e_comp e p = true.

(** After the same number of iterations both return the same displacements,
    forces, energy, offset and number of evaluations: with or without success,
    for every tolerance, start, load and logger. *)
Theorem C81_same_iterates : forall P (e : scall P) th mf md mm bs n m r y,
  has_surface e -> ccg (library_call e th mf md mm bs) n = Ok r -> simple_solve e m = Ret y -> x_nit r = y_nit y ->
  y_x y = x_x r /\ y_jac y = x_jac r /\ y_fun y = x_fun r /\ y_offset y = x_offset r /\ y_nfev y = x_nfev r.
Proof. exact (fun P e th mf md mm bs n m r y S => same_nit e th mf md mm bs S n m r y). Qed.
Print Assumptions C81_same_iterates.

(** At a given offset the example never needs more iterations than the library. *)
Theorem C81_offset_control : forall P (e : scall P) th mf md mm bs n r,
  has_surface e -> e_verbose e = false -> e_callback e = false -> e_ext e = None ->
  ccg (library_call e th mf md mm bs) n = Ok r -> x_success r = true ->
  exists y, simple_solve e n = Ret y /\ y_success y = true /\ (y_nit y <= x_nit r)%nat.
Proof.
  intros P e th mf md mm bs n r S Hv Hcb He Hr Hs. apply (sooner e th mf md mm bs S n r Hv Hcb Hr Hs).
  intros F E. congruence.
Qed.
Print Assumptions C81_offset_control.

(** At a given force likewise, if the library's total force is off by less than
    the example's absolute force tolerance (the library's own test is relative). *)
Theorem C81_force_control : forall P (e : scall P) th mf md mm bs n r F,
  has_surface e -> e_verbose e = false -> e_callback e = false -> e_ext e = Some F ->
  ccg (library_call e th mf md mm bs) n = Ok r -> x_success r = true ->
  Rabs (total (library_call e th mf md mm bs) r - F) < e_forcetol e ->
  exists y, simple_solve e n = Ret y /\ y_success y = true /\ (y_nit y <= x_nit r)%nat.
Proof.
  intros P e th mf md mm bs n r F S Hv Hcb He Hr Hs HF. apply (sooner e th mf md mm bs S n r Hv Hcb Hr Hs).
  intros F' E. replace F' with F by congruence. exact HF.
Qed.
Print Assumptions C81_force_control.

(** A run of the example that stops without success at a given offset therefore
    ends in the state in which the library's run stops without success. *)
Theorem C81_both_fail : forall P (e : scall P) th mf md mm bs n y,
  has_surface e -> e_verbose e = false -> e_ext e = None -> (1 <= n)%nat ->
  simple_solve e n = Ret y -> y_success y = false ->
  exists r, ccg (library_call e th mf md mm bs) n = Ok r /\ x_success r = false /\
    x_nit r = n /\ y_nit y = n /\ y_message y = SMaxiter n /\
    y_x y = x_x r /\ y_jac y = x_jac r /\ y_fun y = x_fun r /\ y_offset y = x_offset r.
Proof.
  intros P e th mf md mm bs n y S Hv He Hn Hy Hs.
  destruct (simple_result_inv e th mf md mm bs S n y Hy) as [(H0&_)|(s&fu&Hr&Hi&E1&E2&Ey&_&Hf&_)]; [lia|].
  destruct (Hf Hs) as [En Hcb].
  destruct (library_returns e th mf md mm bs n Hn) as [r Hr'].
  exists r. split; [exact Hr'|].
  assert (Fs : x_success r = false).
  { destruct (x_success r) eqn:Er; auto.
    destruct (C81_offset_control P e th mf md mm bs n r S Hv Hcb He Hr' Er) as (y'&Hy'&Hs'&_). congruence. }
  destruct (library_result e th mf md mm bs n r Hr') as (s'&fu'&_&_&_&_&_&Hxn&_). specialize (Hxn Fs).
  destruct (same_nit e th mf md mm bs S n n r y Hr' Hy ltac:(congruence)) as (A1&A2&A3&A4&_).
  repeat split; auto. rewrite Ey, Hs. reflexivity.
Qed.
Print Assumptions C81_both_fail.

(** What success of the example means: the result is in equilibrium, loads only
    the surface and, at a given force, carries it up to the force tolerance. *)
Theorem C81_success : forall P (e : scall P) n y,
  has_surface e -> simple_solve e n = Ret y -> y_success y = true ->
  e_verbose e = false /\
  (forall p, e_comp e p = false -> y_jac y p = 0) /\
  y_x y = e_disp e (fun p => - y_jac y p) /\
  y_fun y = / 2 * lsum (filter (e_comp e) (e_pts e)) (fun p => y_jac y p * y_x y p) /\
  (forall F, e_ext e = Some F -> Rabs (lsum (filter (e_comp e) (e_pts e)) (y_jac y) - F) < e_forcetol e) /\
  (1 <= y_nit y <= n)%nat /\ y_nfev y = S (2 * y_nit y) /\ (e_callback e = true -> y_nit y = 1%nat).
Proof. exact (fun P e n y S => success e 0 0 0 0 (fun _ _ _ => None) S n y). Qed.
Print Assumptions C81_success.

(** A callback that is ever reached ends the run with AttributeError: with a
    callback the call only returns if the first iteration converges. *)
Theorem C81_callback : forall P (e : scall P) n,
  has_surface e -> e_callback e = true -> (1 <= n)%nat ->
  simple_solve e n = Exc AttributeErr \/
  exists y, simple_solve e n = Ret y /\ y_success y = true /\ y_nit y = 1%nat.
Proof. exact (fun P e n S => callback_raises e S n). Qed.
Print Assumptions C81_callback.

(** [maxiter = 0]: with a logger an unbound variable, otherwise the start. *)
Theorem C81_no_iteration : forall P (e : scall P),
  simple_solve e 0 = if e_logger e then Exc NameErr else
    Ret (simple_result e false (SMaxiter 0) (simple_init e)).
Proof. intros P e. unfold simple_solve. cbn [simple_loop]. now rewrite andb_true_r. Qed.
Print Assumptions C81_no_iteration.

(** The two default tolerances differ by at least the square root of the number
    of heights.  The library: rms height about the mean over ten times the mean
    number of points per direction. *)
Definition mean (l : list R) : R := fold_right Rplus 0 l / INR (length l).
Definition rms_about_mean (l : list R) : R :=
  sqrt (fold_right Rplus 0 (map (fun h => (h - mean l) ^ 2) l) / INR (length l)).
Theorem C81_default_tolerance : forall heights n off,
  0 < n -> (exists h, In h heights /\ h <> 0) ->
  exists t, default_pentol heights n off = Ret t /\ 0 < t /\
    sqrt (INR (length heights)) * (rms_about_mean heights / (10 * n)) <= t.
Proof. exact default_tolerance. Qed.
Print Assumptions C81_default_tolerance.
Theorem C81_default_flat : forall k n off,
  0 < n -> (1 <= k)%nat ->
  default_pentol (repeat 0 k) n off =
    match off with None => Exc TypeErr | Some x => Ret (if Req_EM_T x 0 then 1 / 1000 else x / 1000) end.
Proof. exact default_flat. Qed.
Print Assumptions C81_default_flat.

(** Two rows at a given offset ([E1] of the library's examples), and at a given
    force ([E3]). *)
Definition as_example {P} (c : @cfg R P) (pts : list P) (verbose : bool) : scall P :=
  mkScall P pts (c_slice c) (c_h c) (length pts) (c_disp c) (c_force c) (c_ext c) (Some (c_offset c)) (c_u0 c)
    (c_pentol c) (c_forcetol c) true false verbose.
Example C81_nonvacuous :
  (exists y, simple_solve (as_example E1c pts2 false) 5 = Ret y /\ y_success y = true /\ (y_nit y <= 2)%nat) /\
  (exists y, simple_solve (as_example E3c pts2 false) 9 = Ret y /\ y_success y = true) /\
  (exists y, simple_solve (as_example E1c pts2 true) 2 = Ret y /\ y_success y = false /\ y_jac y false = 1).
Proof.
  assert (S1 : forall b, has_surface (as_example E1c pts2 b)) by (intros b; exists true; split; [simpl; auto|reflexivity]).
  assert (S3 : has_surface (as_example E3c pts2 false)) by (exists true; split; [simpl; auto|reflexivity]).
  split; [|split].
  - destruct E1_run as (r&H&Hs&_&Hn&_).
    pose proof (C81_offset_control _ (as_example E1c pts2 false) _ _ _ _ _ 5 r (S1 false) eq_refl eq_refl eq_refl H Hs) as X.
    now rewrite Hn in X.
  - destruct E3_run as (r&H&Hs&_&H1&H2&_).
    destruct (C81_force_control _ (as_example E3c pts2 false) _ _ _ _ _ 9 r _ S3 eq_refl eq_refl eq_refl H Hs) as (y&Hy&Hys&_); [|eauto].
    unfold total, lsum, grid; cbn. rewrite H1, H2. q2r. rewrite Rabs_right; lra.
  - destruct E1_run as (r&H&Hs&_&Hn&_&Hj&_).
    destruct (simple_returns (as_example E1c pts2 true) (c_thermotol E1c) (c_mixfac E1c) (c_mixdec E1c) (c_minmix E1c) (c_bisect E1c) (S1 true) 2 eq_refl (or_intror (le_S _ _ (le_n 1))))
      as [y Hy].
    exists y. split; [exact Hy|].
    destruct (y_success y) eqn:Ey.
    + destruct (C81_success _ _ 2 y (S1 true) Hy Ey) as [X _]. discriminate.
    + split; [reflexivity|].
      assert (En : y_nit y = 2%nat).
      { destruct (simple_result_inv (as_example E1c pts2 true) (c_thermotol E1c) (c_mixfac E1c) (c_mixdec E1c) (c_minmix E1c) (c_bisect E1c) (S1 true) 2 y Hy) as [(H0&_)|(s&fu&_&_&_&_&_&_&Hf&_)]; [lia|].
        apply Hf, Ey. }
      destruct (C81_same_iterates _ (as_example E1c pts2 true) _ _ _ _ _ 5 2 r y (S1 true) H Hy ltac:(congruence)) as (_&Ej&_).
      now rewrite Ej.
Qed.

(** The other direction fails: with a tight thermodynamic tolerance the library
    goes on where the example has stopped. *)
Definition E1t : @qprob bool :=
  mkProb all none (m2 1 (1#2) 1) (m2 (4#3) (-2#3) (4#3)) (v2 1 (-1)) None None 0 None (1#2) 1 0.
Theorem C81_library_later_refuted :
  ~ (forall P (e : scall P) th mf md mm bs n y, has_surface e -> e_ext e = None -> simple_solve e n = Ret y -> y_success y = true ->
       exists r, ccg (library_call e th mf md mm bs) n = Ok r /\ x_success r = true).
Proof.
  intros H. destruct C81_nonvacuous as [[y (Hy&Hs&_)] _].
  assert (S1 : has_surface (as_example E1c pts2 false)) by (exists true; split; [simpl; auto|reflexivity]).
  specialize (H _ (as_example E1c pts2 false) (c_thermotol (rcfg_of pts2 E1t)) (c_mixfac E1c) (c_mixdec E1c) (c_minmix E1c) (c_bisect E1c) 5%nat y
    S1 eq_refl Hy Hs).
  destruct H as (r&Hr&Hsr). change (ccg (rcfg_of pts2 E1t) 5 = Ok r) in Hr.
  destruct (exec2 E1t 5 false 5 Cg 0 1 0 1 (1#2) 0 true false) as (r'&Hr'&Hf&_).
  { vm_compute. reflexivity. }
  congruence.
Qed.
Print Assumptions C81_library_later_refuted.
