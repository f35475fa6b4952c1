(** * Property of the NetCDF file of the command line (C90) *)
From Coq Require Import Reals ZArith Lia Lra List Bool String.
From Verif Require Import Py FFT_Base HalfSpace_Model Systems_Model Pipeline_Spec HardWall_Model HardWall_Spec HardWall_Proofs HardWall_Results Prop_HardWall.
From Verif Require Import NetCDF_Model NetCDF_Spec NetRun_Model NetRun_Spec NetRun_Proofs.
From Coq Require Import List.
Import ListNotations.
Local Open Scope R_scope.

Section Theorems.
  Variable ov : Z -> R.
  Variable sub : R -> R.
  Variable float_of : string -> res R.
  Variable int_of : string -> res Z.
  Variable detrend : string -> surface -> res surface.
  Variable load : option string -> res scanned.
  Variable file_unit : option string.
  Variable solver : substrate -> surface -> option R -> option R -> option R -> option R -> nat -> res oresult.
  Variable active : surface -> option R -> option R -> zone.
  Notation main := (hw_main float_of int_of detrend load file_unit solver active).
  Notation read := (read_surface detrend load file_unit).

  Lemma frames_fit : forall a sb total sf0 cs ss n m, fits_grid solver sb n m -> hw_explains solver a sb total sf0 cs ss ->
    sf_grid sf0 = [n; m] -> forall x, In x (map frame_of ss) -> fit n m x.
  Proof.
    intros a sb total sf0 cs ss n m FG Ex G x X. apply in_map_iff in X. destruct X as (s & <- & I). unfold frame_of, fit.
    destruct (hx_grid _ _ _ _ _ _ _ Ex s I) as [Gs _]. rewrite G in Gs.
    pose proof (FG _ _ _ _ _ _ _ Gs (hx_solver _ _ _ _ _ _ _ Ex s I)) as (J & p & q & Ox & Lp & Lq).
    destruct (hx_fields _ _ _ _ _ _ _ Ex s I) as (n0 & n1 & F & H). unfold forces in *. rewrite J in F. injection F as <- <-.
    split; [|exact J]. unfold head_slice in H. rewrite Ox in H. injection H as <-. cbn [a_shape]. rewrite !Nat.min_l by assumption. reflexivity.
  Qed.

  (** The program writes the file without an exception, and leaves the others
      alone. Opening it, to read or to append, gives one frame for each
      calculation, in their order, with exactly the displacements, forces,
      position, load and fractional contact area of the calculation. *)
  Theorem C90_file : forall a ev t n m fn k, main a = (ev, Ret tt) -> hw_displacement a = None -> hw_netcdf a = true ->
    read a = Ret t -> sf_grid (sc_surface t) = [n; m] ->
    (forall sb young, hw_substrate a t = Ret (sb, young) -> fits_grid solver sb n m) ->
    exists sb young o ss k', hw_substrate a t = Ret (sb, young) /\ asked float_of int_of a o
      /\ hw_explains solver a sb (fold_right Rmult 1 (sc_sizes t)) (sc_surface t) (fst (plan o)) ss
      /\ List.length ss = List.length (fst (plan o))
      /\ write_file ov sub fn [n; m] (frames ev) k = (k', Ret tt)
      /\ (forall fn', fn' <> fn -> assoc fn' k' = assoc fn' k)
      /\ forall db mode, mode <> Write -> exists c, open_container fn 0 db mode k' = (k', Ret c)
         /\ length_of c = Ret (List.length ss)
         /\ forall i s, nth_error ss i = Some s ->
              holds c n m (Z.of_nat i) (hd_u s) (forces s) (hd_position s) (hd_load s) (contact_points (forces s) / INR (n * m)).
  Proof.
    intros a ev t n m fn k H D Nc Rd G FG.
    destruct (C67_output float_of int_of detrend load file_unit solver active a ev (Ret tt) H D)
      as [[_ [e Q]]|(t' & sb & young & o & ss & Rd' & Sb & A & Ex & _ & Fr & _ & Fin)]; [discriminate|].
    rewrite Rd in Rd'. injection Rd' as <-. rewrite Nc in Fr. destruct (Fin eq_refl) as [Ln _].
    pose proof (frames_fit _ _ _ _ _ _ n m (FG _ _ Sb) Ex G) as Ft. rewrite <- Fr in Ft.
    destruct (write_ok ov sub fn n m (frames ev) k Ft) as (k' & W & Ot & Rdr).
    exists sb, young, o, ss, k'. split; [exact Sb|]. split; [exact A|]. split; [exact Ex|]. split; [exact Ln|]. split; [exact W|]. split; [exact Ot|].
    intros db mode Mo. destruct (Rdr db mode Mo) as (c & Op & L & Hd). exists c. split; [exact Op|].
    split; [rewrite L, Fr, map_length; reflexivity|]. intros i s I. apply Hd. rewrite Fr, nth_error_map, I. unfold frame_of. cbn [option_map].
    rewrite (proj1 (hx_grid _ _ _ _ _ _ _ Ex s (nth_error_In _ _ I))), G. cbn [Systems_Model.size fold_right]. rewrite Nat.mul_1_r. reflexivity.
  Qed.

  (** If the program ends with an exception, the open file contains the
      calculations that were finished. *)
  Theorem C90_unfinished : forall a ev r t n m fn k, main a = (ev, r) -> hw_displacement a = None -> hw_netcdf a = true ->
    read a = Ret t -> sf_grid (sc_surface t) = [n; m] ->
    (forall sb young, hw_substrate a t = Ret (sb, young) -> fits_grid solver sb n m) ->
    exists k' c, fill_file ov sub fn [n; m] (frames ev) k = (k', Ret c) /\ length_of c = Ret (List.length (rows ev))
      /\ forall i u f p l x, nth_error (frames ev) i = Some (u, f, p, l, x) -> holds c n m (Z.of_nat i) u f p l x.
  Proof.
    intros a ev r t n m fn k H D Nc Rd G FG.
    assert (X : (forall x, In x (frames ev) -> fit n m x) /\ List.length (rows ev) = List.length (frames ev)).
    { destruct (C67_output float_of int_of detrend load file_unit solver active a ev r H D)
        as [[-> _]|(t' & sb & young & o & ss & Rd' & Sb & A & Ex & Rw & Fr & _ & _)]; [split; [intros ? []|reflexivity]|].
      rewrite Rd in Rd'. injection Rd' as <-. rewrite Nc in Fr. rewrite Rw, Fr, !map_length. split; [|reflexivity].
      exact (frames_fit _ _ _ _ _ _ n m (FG _ _ Sb) Ex G). }
    destruct X as [Ft L]. destruct (fill_ok ov sub fn n m (frames ev) k Ft) as (k' & c & d & E & (-> & Fr & _) & Cl & _).
    do 2 eexists. split; [exact E|]. split; [unfold length_of, data; cbn [c_data bind]; rewrite Fr, L; reflexivity|].
    intros i u f p l x I. eapply columns_hold; [reflexivity|exact Fr|exact Cl|exact Ft|exact I].
  Qed.
End Theorems.
Print Assumptions C90_file.
Print Assumptions C90_unfinished.

(** ** A run *)
Lemma ex_forces_grid : forall sb n m, fits_grid ex_solver sb n m.
Proof. intros sb n m sf h off force pentol maxiter r G H. injection H as <-. split; [exact G|]. exists n, m. split; [exact G|lia]. Qed.
Example C90_nonvacuous : forall ov sub, exists ev k' c,
  ex_main 1 (ex_hw "periodic" (1 / 2) None (Some "1,2,3"%string)) = (ev, Ret tt)
  /\ write_file ov sub "f" [2; 2]%nat (frames ev) [] = (k', Ret tt)
  /\ open_container "f" 0 false Read k' = (k', Ret c) /\ length_of c = Ret 3%nat
  /\ reads_number c 2 "load" 2.
Proof.
  intros ov sub.
  destruct (C67_nonvacuous "periodic" (Some "1,2,3"%string) (or_introl eq_refl) (or_intror eq_refl)) as (ev & E & _).
  destruct (C90_file ov sub ex_float ex_int ex_detrend (ex_load 1) (Some "m"%string) ex_solver ex_active
    (ex_hw "periodic" (1 / 2) None (Some "1,2,3"%string)) ev _ 2 2 "f" [] E eq_refl eq_refl (ex_read 1 "periodic" (1 / 2) _) eq_refl
    (fun sb _ _ => ex_forces_grid sb 2 2)) as (sb & young & o & ss & k' & _ & A & Ex & Ln & W & _ & Op).
  rewrite (C67_asked ex_float ex_int _ _ _ A (ex_asked_range _ _ _) eq_refl) in *. cbn [plan fst map List.length] in Ln.
  destruct (Op false Read ltac:(discriminate)) as (c & O & L & Hd).
  exists ev, k', c. split; [exact E|]. split; [exact W|]. split; [exact O|]. split; [rewrite L, Ln; reflexivity|].
  destruct (nth_error ss 2) as [s|] eqn:S2; [|apply nth_error_None in S2; lia].
  destruct (Hd 2%nat s S2) as (_ & _ & _ & Ld & _).
  destruct (hx_pressures _ _ _ _ _ _ _ Ex 2%nat 2 s eq_refl S2) as (_ & _ & _ & Q). rewrite Q in Ld. exact Ld.
Qed.
