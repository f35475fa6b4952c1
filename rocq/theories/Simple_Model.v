(** * Model of the stand-alone solver in the examples

    Models [/repo/examples/simple_polonsky_keer.py], function
    [constrained_conjugate_gradients] (lines 53-343).  The script part (lines
    346-372: reading a file, plotting) is not modelled.

    Simplifications: floating point numbers are reals; an array on the
    computation grid is a function on the points [P] listed in [e_pts]; entry
    [p] of a compressed array [a[comp_mask]] is its value at point [p].  The
    check for nan (lines 326-327) cannot fail over the reals. *)
From Coq Require Import Reals List Bool Arith.
From Verif Require Import Py.
Import ListNotations.
Local Open Scope R_scope.

Definition ltb (a b : R) : bool := if Rlt_dec a b then true else false.
Definition eqb0 (a : R) : bool := if Req_EM_T a 0 then true else false.

(** delta_str, lines 157, 246, 249. *)
Inductive sstatus := SReset | SSd | SCg.

(** The arguments (lines 53-62).  [e_comp]: [comp_mask] (lines 130-134),
    [e_h]: [topography[surf_mask]], [e_n]: [np.prod(topography.shape)],
    [e_disp], [e_force]: the methods of the substrate. *)
Record scall {P : Type} := mkScall {
  e_pts : list P;
  e_comp : P -> bool;
  e_h : P -> R;
  e_n : nat;
  e_disp : (P -> R) -> P -> R;
  e_force : (P -> R) -> P -> R;
  e_ext : option R;
  e_offset : option R;
  e_u0 : option (P -> R);
  e_pentol : R;
  e_forcetol : R;
  e_logger : bool;
  e_callback : bool;
  e_verbose : bool }.
Arguments scall : clear implicits.

(** Lines 103-116: the tolerance if none is given.  [shape_mean]:
    [np.mean(topography.shape)]; [None + x] raises TypeError. *)
Definition default_pentol (heights : list R) (shape_mean : R) (offset : option R) : res R :=
  let t1 := sqrt (fold_right Rplus 0 (map (fun h => h ^ 2) heights)) / (10 * shape_mean) in
  if eqb0 t1 then
    match offset with
    | None => Exc TypeErr
    | Some off =>
        let t2 := (off + fold_right Rplus 0 heights / INR (length heights)) / 1000 in
        if eqb0 t2 then Ret (1 / 1000) else Ret t2
    end
  else Ret t1.

Section Simple.
  Context {P : Type}.
  Variable e : scall P.

  (** numpy reductions over the computation grid, or a selection of it; the
      maximum of nothing raises ValueError. *)
  Definition total_of (m : P -> bool) (phi : P -> R) : R :=
    fold_right Rplus 0 (map phi (filter m (e_pts e))).
  Definition count_of (m : P -> bool) : nat := length (filter m (e_pts e)).
  Definition max_list (l : list R) : option R :=
    fold_right (fun x m => match m with None => Some x | Some y => Some (Rmax x y) end) None l.
  Definition max_of (m : P -> bool) (phi : P -> R) : option R := max_list (map phi (filter m (e_pts e))).
  Definition everywhere (p : P) : bool := true.
  Definition padding (p : P) : bool := negb (e_comp e p).
  (** [mask * array] *)
  Definition times (b : bool) (x : R) : R := if b then x else 0.

  (** Variables that live across iterations (lines 155-161); [v_off]: the local
      variable [offset]. *)
  Record sstate := mkSstate {
    v_p : P -> R; v_u : P -> R; v_t : P -> R;
    v_delta : bool; v_str : sstatus; v_Gold : R; v_off : R;
    v_nit : nat; v_nfev : nat }.

  (** Lines 122-161. *)
  Definition simple_init : sstate :=
    let off := match e_offset e with Some x => x | None => 0 end in
    let u0 := match e_u0 e with None => fun _ => 0 | Some u => u end in
    let u := fun p => if e_comp e p then (if ltb (u0 p) (e_h e p + off) then e_h e p + off else u0 p) else u0 p in
    let p0 := e_force e u in
    mkSstate (fun p => if padding p then 0 else p0 p) u (fun _ => 0) false SReset 1 off 0 1.

  (** Values of one iteration that are tested or reported (lines 251-283). *)
  Record svalues := mkSvalues {
    w_conv : bool; w_area : nat; w_total : R; w_rms : R; w_maxpen : R; w_maxpres : R; w_padpres : R; w_maxdu : R }.

  (** One iteration, lines 162-283, piece by piece. *)
  Section Iteration.
    Variable s : sstate.
    (* 166-170 *)
    Definition i_c (p : P) : bool := ltb (v_p s p) 0.
    Definition i_A : nat := count_of i_c.
    (* 172-178 *)
    Definition i_g0 (p : P) : R := v_u s p - e_h e p.
    Definition i_inside (p : P) : bool := e_comp e p && i_c p.
    Definition i_off : R :=
      match e_ext e with
      | None => v_off s
      | Some _ => if Nat.ltb 0 i_A then total_of i_inside i_g0 / INR (count_of i_inside) else 0
      end.
    Definition i_g (p : P) : R := i_g0 p - i_off.
    (* 181 *)
    Definition i_G : R := total_of (e_comp e) (fun p => times (i_c p) (i_g p * i_g p)).
    (* 184-188; outside [comp_mask] t_r keeps its value *)
    Definition i_t (p : P) : R :=
      if e_comp e p
      then times (i_c p) (if v_delta s && ltb 0 (v_Gold s) then i_g p + i_G / v_Gold s * v_t s p else i_g p)
      else v_t s p.
    (* 193-204 *)
    Definition i_x : R := - total_of everywhere (fun p => times (i_c p) (e_disp e i_t p * i_t p)).
    Definition i_tau : R :=
      if Nat.ltb 0 i_A
      then (if ltb 0 i_x then total_of (e_comp e) (fun p => times (i_c p) (i_g p * i_t p)) / i_x else 0)
      else 0.
    Definition i_G' : R := if Nat.ltb 0 i_A then (if ltb 0 i_x then i_G else 0) else i_G.
    (* 206 *)
    Definition i_p1 (p : P) : R := v_p s p + times (i_c p) (i_tau * i_t p).
    (* 210-211 *)
    Definition i_tensile (p : P) : bool := negb (ltb (i_p1 p) 0).
    Definition i_nc (p : P) : bool := e_comp e p && (i_tensile p && ltb (i_g p) 0).
    (* 215-223 *)
    Definition i_padpres : R := match max_of padding (fun p => Rabs (i_p1 p)) with Some v => v | None => 0 end.
    Definition i_maxpres : R := match max_of i_tensile i_p1 with Some v => v | None => 0 end.
    (* 226 *)
    Definition i_p2 (p : P) : R := if i_tensile p then 0 else i_p1 p.
    (* 229-236 *)
    Definition i_p3 : P -> R :=
      match e_ext e with
      | None => i_p2
      | Some F =>
          let tot := - total_of (e_comp e) i_p2 in
          if eqb0 tot then (fun p => if padding p then 0 else - F / INR (e_n e))
          else (fun p => i_p2 p * (F / tot))
      end.
    (* 238-248 *)
    Definition i_changed : bool := Nat.ltb 0 (count_of i_nc).
    Definition i_p4 : P -> R :=
      if i_changed then (fun p => if e_comp e p then i_p3 p + i_tau * times (i_nc p) (i_g p) else i_p3 p) else i_p3.
    (* 251-254 *)
    Definition i_tot : R := - total_of (e_comp e) i_p4.
    Definition i_conv1 : bool := match e_ext e with Some F => ltb (Rabs (i_tot - F)) (e_forcetol e) | None => true end.
    (* 258-261 *)
    Definition i_u : P -> R := e_disp e i_p4.
    (* 259, 265-282 *)
    Definition simple_iter : res (sstate * svalues) :=
      match max_of everywhere (fun p => Rabs (i_u p - v_u s p)),
            max_of (e_comp e) (fun p => times (i_c p) (e_h e p + i_off - i_u p)) with
      | Some maxdu, Some pen =>
          let rms := if Nat.ltb 0 i_A then sqrt (i_G' / INR i_A) else sqrt i_G' in
          let maxpen := Rmax 0 pen in
          let conv := i_conv1 && ltb rms (e_pentol e) && ltb maxpen (e_pentol e) && ltb maxdu (e_pentol e)
                      && ltb i_maxpres (e_forcetol e) && ltb i_padpres (e_forcetol e) in
          Ret (mkSstate i_p4 i_u i_t (negb i_changed) (if i_changed then SSd else SCg) i_G' i_off
                 (S (v_nit s)) (2 + v_nfev s),
               mkSvalues conv i_A i_tot rms maxpen i_maxpres i_padpres maxdu)
      | _, _ => Exc ValueErr
      end.
  End Iteration.

  (** The result object (lines 143-147, 299-311, 333-343); [jac] is the slice
      of the computational region. *)
  Inductive smessage := SConverged | SMaxiter (n : nat).
  Record sresult := mkSresult {
    y_x : P -> R; y_jac : P -> R; y_fun : R; y_offset : R;
    y_success : bool; y_message : smessage; y_nit : nat; y_nfev : nat }.
  Definition simple_result (ok : bool) (m : smessage) (s : sstate) : sresult :=
    mkSresult (v_u s) (fun p => - v_p s p) (- total_of (e_comp e) (fun p => v_p s p * v_u s p) / 2) (v_off s)
      ok m (v_nit s) (v_nfev s).

  (** The [for] loop, lines 162-343.  [started]: an iteration was completed, so
      that [log_values] is bound (lines 329-331).  Convergence is only looked at
      without [verbose] (lines 289-295).  The dictionary for the callback is
      built as [dict(...).item()], which raises AttributeError (lines 315-324). *)
  Fixpoint simple_loop (maxiter fuel : nat) (s : sstate) (started : bool) : res sresult :=
    match fuel with
    | O => if e_logger e && negb started then Exc NameErr
           else Ret (simple_result false (SMaxiter maxiter) s)
    | S n =>
        match simple_iter s with
        | Exc x => Exc x
        | Ret (s', w) =>
            if negb (e_verbose e) && w_conv w then Ret (simple_result true SConverged s')
            else if e_callback e then Exc AttributeErr
            else simple_loop maxiter n s' true
        end
    end.

  (** The call with the tolerance given. *)
  Definition simple_solve (maxiter : nat) : res sresult := simple_loop maxiter maxiter simple_init false.
End Simple.
