(** * Runs of the solver in binary64, executed *)
From Coq Require Import List Bool ZArith Permutation.
From Coq Require Import Floats.SpecFloat.
From Verif Require Import Float_Model Float_Spec Float_IEEE.
Import ListNotations.

(** Two points; the substrate has the compliance matrix ((3, 1), (1, 3)) and
    the stiffness matrix ((3, -1), (-1, 3)) / 8. *)
Definition mat_disp (p q : bool) : F64 := if Bool.eqb p q then f64_of (-3) 0 else f64_of (-1) 0.
Definition mat_force (p q : bool) : F64 := if Bool.eqb p q then f64_of (-3) (-3) else f64_of 1 (-3).
Definition mat_apply (m : bool -> bool -> F64) (f : bool -> F64) (p : bool) : F64 :=
  fold_right (SFadd 53 1024) (S754_zero false) (map (fun q => SFmul 53 1024 (m p q) (f q)) [true; false]).

(** Heights [h], hardness, load, offset and start. *)
Definition cfg64 (h : bool -> F64) (hard ext : option F64) (off : F64)
    (u0 : option (bool -> F64)) : fcfg (F:=F64) (P:=bool) :=
  mkFcfg [true; false] (fun _ => true) (fun _ => false) h (mat_apply mat_disp) (mat_apply mat_force)
    hard ext off u0 None (f64_of 1 (-20)) (f64_of 1 (-20)) (f64_of 1 (-20))
    (SFdiv 53 1024 (f64_of 1 0) (f64_of 10 0)) (SFdiv 53 1024 (f64_of 9 0) (f64_of 10 0)) 10 2
    (fun _ _ _ => None).

Definition step64 : bool -> F64 := fun p => if p then f64_of 1 0 else f64_of (-5) 0.
Definition el64 := cfg64 step64 None None (S754_zero false) None.
Definition load64 := cfg64 step64 None (Some (f64_of 1 (-2))) (S754_zero false) (Some (fun _ => f64_of 2 0)).
(** The height of the second point is not a number. *)
Definition hole64 : bool -> F64 := fun p => if p then f64_of 1 0 else S754_nan.
Definition pl_hole64 := cfg64 hole64 (Some (f64_of 1 (-10))) None (S754_zero false) None.
Definition pl64 := cfg64 step64 (Some (f64_of 1 (-10))) None (S754_zero false) None.
Definition el_hole64 := cfg64 hole64 None None (S754_zero false) None.

Lemma matrix64 : forall h hard ext off u0, by_matrix A64 (cfg64 h hard ext off u0) mat_disp.
Proof. intros h hard ext off u0 f p _. apply sum64. Qed.

(** A result at the two points; results are compared only in this form. *)
Definition show (r : foutcome (F:=F64) (P:=bool) + fexn) :=
  match r with
  | inl o => inl ((o_success o, o_str o, o_nit o, o_nfev o),
      (o_x o true, o_x o false), (o_full o true, o_full o false), (o_jac o true, o_jac o false),
      (o_active o true, o_active o false), o_offset o)
  | inr e => inr e
  end.
Lemma show_inl : forall r a x f j b off, show r = inl (a, x, f, j, b, off) ->
  exists o, r = inl o /\ (o_success o, o_str o, o_nit o, o_nfev o) = a
    /\ o_x o true = fst x /\ o_x o false = snd x /\ o_full o true = fst f /\ o_full o false = snd f
    /\ o_jac o true = fst j /\ o_jac o false = snd j /\ o_active o true = fst b /\ o_active o false = snd b
    /\ o_offset o = off.
Proof.
  intros [o|e] a x f j b off H; [|discriminate]. unfold show in H.
  exists o. split; [reflexivity|]. inversion H. subst. repeat (split; [reflexivity|]). reflexivity.
Qed.
Definition third : F64 := S754_finite false 6004799503160661 (-54).
Lemma el64_run : show (frun A64 el64 4) =
  inl ((true, FCg, 3, 7), (f64_of 1 0, third), (SFopp third, S754_zero false), (third, S754_zero true),
       (true, false), S754_zero false).
Proof. vm_compute. reflexivity. Qed.
Lemma load64_run : show (frun A64 load64 4) =
  inl ((true, FCg, 3, 7), (f64_of 3 (-2), f64_of 1 (-2)), (f64_of (-1) (-2), S754_zero false),
       (f64_of 1 (-2), S754_zero true), (true, false), f64_of (-1) (-2)).
Proof. vm_compute. reflexivity. Qed.
Lemma pl64_run : show (frun A64 pl64 4) =
  inl ((true, FMix, 2, 3), (f64_of 3 (-10), f64_of 1 (-10)), (f64_of (-1) (-10), S754_zero false),
       (f64_of 1 (-10), S754_zero true), (true, false), S754_zero false).
Proof. vm_compute. reflexivity. Qed.
Lemma pl_hole64_run : show (frun A64 pl_hole64 4) =
  inl ((true, FMix, 2, 3), (f64_of 3 (-10), f64_of 1 (-10)), (f64_of (-1) (-10), S754_zero false),
       (f64_of 1 (-10), S754_zero true), (true, false), S754_zero false).
Proof. vm_compute. reflexivity. Qed.
Lemma el_hole64_run : show (frun A64 el_hole64 2) =
  inl ((false, FCg, 2, 5), (S754_nan, S754_nan), (S754_nan, S754_nan), (S754_nan, S754_nan), (true, false), S754_zero false)
  /\ show (frun A64 el_hole64 3) = inr NanEncountered.
Proof. vm_compute. split; reflexivity. Qed.

(** Forces are given; the first point is at the hardness. *)
Definition flow64 : fcfg (F:=F64) (P:=bool) :=
  mkFcfg [true; false] (fun _ : bool => true) (fun _ : bool => false) step64 (mat_apply mat_disp) (mat_apply mat_force)
    (Some (f64_of 1 (-3))) None (S754_zero false) None
    (Some (fun p : bool => if p then f64_of (-1) (-3) else f64_of (-1) (-4)))
    (f64_of 1 (-20)) (f64_of 1 (-20)) (f64_of 1 (-20))
    (SFdiv 53 1024 (f64_of 1 0) (f64_of 10 0)) (SFdiv 53 1024 (f64_of 9 0) (f64_of 10 0)) 10 2
    (fun _ _ _ => None).
Lemma flow64_run : show (frun A64 flow64 1) =
  inl ((false, FCg, 1, 3), (f64_of 3 (-3), f64_of 1 (-3)), (f64_of (-1) (-3), S754_zero false),
       (f64_of 1 (-3), S754_zero true), (false, true), S754_zero false).
Proof. vm_compute. reflexivity. Qed.
Lemma el64_two : show (frun A64 el64 1) =
  inl ((false, FCg, 1, 3), (f64_of 9 (-3), f64_of 3 (-3)), (f64_of (-3) (-3), S754_zero false),
       (f64_of 3 (-3), S754_zero true), (true, false), S754_zero false)
  /\ show (frun A64 el64 2) =
  inl ((false, FCg, 2, 5), (f64_of 1 0, third), (SFopp third, S754_zero false), (third, S754_zero true),
       (true, false), S754_zero false).
Proof. vm_compute. split; reflexivity. Qed.
