(** * Model of the constrained conjugate gradient contact solver

    Models [/repo/ContactMechanics/Optimization/ConstrainedConjugateGradients.py],
    function [constrained_conjugate_gradients] (lines 47-509).

    General simplifications (they apply to every definition of this file):
    - floating point numbers are elements of an ordered field [F] given by an
      operation record [Ops]; the theorems use the instance for Coq's reals;
    - a distributed numpy array is a function [P -> F] on the set of grid
      points of the (computation) domain.  Which process owns which point is
      the list [ranks]: one list of owned points per process;
    - all processes execute in lockstep and communicate only through
      [reduction] (NuMPI), which is what the Python code does;
    - numpy boolean indexing [a[comp_mask]] is represented pointwise: entry
      [p] of the compressed array is the value at grid point [p]. *)

From Coq Require Import List Bool Arith.
Import ListNotations.

(** Exceptions of the Python code as values. *)
Inductive exn :=
| TypeError | ValueError | UnboundLocalError | GenericException.

Inductive result (A : Type) :=
| Ok (a : A)
| Raise (e : exn).
Arguments Ok {A} a.
Arguments Raise {A} e.

(** Scalar operations.  [mat] materialises an array (numpy arrays are stored,
    not recomputed); it is the identity for the real instance and tabulation
    for the rational instance used to execute witnesses. *)
Record Ops (F P : Type) := mkOps {
  o0 : F; o1 : F;
  oadd : F -> F -> F; osub : F -> F -> F; omul : F -> F -> F;
  oopp : F -> F; odiv : F -> F -> F;
  oltb : F -> F -> bool; oeqb : F -> F -> bool;
  onat : nat -> F;
  mat : (P -> F) -> (P -> F) }.

Arguments o0 {F P}. Arguments o1 {F P}. Arguments oadd {F P}.
Arguments osub {F P}. Arguments omul {F P}. Arguments oopp {F P}.
Arguments odiv {F P}. Arguments oltb {F P}. Arguments oeqb {F P}.
Arguments onat {F P}. Arguments mat {F P}.

(** delta_str, lines 230, 260, 309, 378-387. *)
Inductive status := Reset | Sd | Cg | Mix.

Definition is_mix (s : status) : bool :=
  match s with Mix => true | _ => false end.

(** The [hardness] argument: a scalar or an array (lines 67-69). *)
Inductive hardness_arg (F P : Type) :=
| HScalar (H : F)
| HArray (H : P -> F).
Arguments HScalar {F P} H.
Arguments HArray {F P} H.

Section Model.
  Context {F P : Type}.
  Variable K : Ops F P.

  Notation "0" := (o0 K).
  Notation "1" := (o1 K).
  Infix "+" := (oadd K).
  Infix "-" := (osub K).
  Infix "*" := (omul K).
  Infix "/" := (odiv K).
  Notation "- x" := (oopp K x).
  Infix "<?" := (oltb K).
  Definition leb (a b : F) : bool := negb (oltb K b a).
  Infix "<=?" := leb.
  Infix "=?" := (oeqb K).

  Definition absF (x : F) : F := if x <? 0 then - x else x.
  Definition maxF (x y : F) : F := if x <? y then y else x.
  Definition minF (x y : F) : F := if y <? x then y else x.

  (** [b * x] for a numpy boolean [b]. *)
  Definition bmul (b : bool) (x : F) : F := if b then x else 0.

  (** NuMPI [Reduction.sum] of a float array: the sum over the processes of the
      local sums. *)
  Definition sum_list (l : list F) : F := fold_right (oadd K) 0 l.
  Definition rsum (ranks : list (list P)) (phi : P -> F) : F :=
    sum_list (map (fun l => sum_list (map phi l)) ranks).
  (** [reduction.sum(mask * 1)]: an integer. *)
  Definition rcount (ranks : list (list P)) (m : P -> bool) : nat :=
    fold_right Nat.add O (map (fun l => length (filter m l)) ranks).
  (** NuMPI [Reduction.max] / [Reduction.min]; [None] is the value of an empty
      selection (-inf / +inf in NuMPI). *)
  Definition opt_op (op : F -> F -> F) (a b : option F) : option F :=
    match a, b with
    | Some x, Some y => Some (op x y)
    | Some x, None => Some x
    | None, b => b
    end.
  Definition ropt (op : F -> F -> F) (ranks : list (list P))
             (m : P -> bool) (phi : P -> F) : option F :=
    fold_right (opt_op op) None
      (map (fun l => fold_right (fun p => opt_op op (Some (phi p))) None
                                (filter m l)) ranks).
  Definition rmax := ropt maxF.
  Definition rmin := ropt minF.
  (** [x < y] where [x] may be -inf. *)
  Definition oltb_inf (x : option F) (y : F) : bool :=
    match x with None => true | Some v => v <? y end.

  (** Inputs after argument processing (lines 47-62, 134-195).
      [c_slice] is the region [comp_slice] (lines 188-190), [c_masked] the mask
      of the topography on that region (lines 199-204), [c_disp]/[c_force] are
      [substrate.evaluate_disp]/[evaluate_force]; [c_bisect] is
      [scipy.optimize.bisect] ([None] = it raises ValueError). *)
  Record cfg := mkCfg {
    c_ranks : list (list P);
    c_slice : P -> bool;
    c_masked : P -> bool;
    c_h : P -> F;
    c_disp : (P -> F) -> (P -> F);
    c_force : (P -> F) -> (P -> F);
    c_hard : option (hardness_arg F P);
    c_ext : option F;
    c_offset : F;
    c_u0 : option (P -> F);
    c_f0 : option (P -> F);
    c_pentol : F; c_forcetol : F; c_thermotol : F;
    c_mixfac : F; c_mixdec : F;
    c_minmix : nat;
    c_nsurf : nat;
    c_bisect : (F -> F) -> F -> F -> option F }.

  Variable c : cfg.

  (** comp_mask (lines 196-204) and pad_mask (line 210). *)
  Definition comp (p : P) : bool := c_slice c p && negb (c_masked c p).
  Definition pad (p : P) : bool := negb (comp p).

  Definition hval (h : hardness_arg F P) (p : P) : F :=
    match h with HScalar H => H | HArray H => H p end.

  (** Loop state: all variables that live across iterations (lines 228-240). *)
  Record state := mkState {
    s_f : P -> F; s_u : P -> F; s_t : P -> F;
    s_delta : bool;            (* delta, 0 or 1 *)
    s_str : status;            (* delta_str *)
    s_Gold : F;
    s_off : F;
    s_tau : F;
    s_mixfac : F;
    s_mixsteps : nat;
    s_lastmh : option (option F);   (* last_max_height; inner None = -inf *)
    s_lasttf : option F;
    s_nit : nat; s_nfev : nat }.

  (** Initial state, lines 179-240. *)
  Definition init_state : state :=
    let u1 := match c_u0 c with None => fun _ => 0 | Some u => u end in
    (* line 212 *)
    let u2 := mat K (fun p =>
      if comp p then
        (if u1 p <? c_h c p + c_offset c then c_h c p + c_offset c else u1 p)
      else u1 p) in
    (* lines 221-225 *)
    let f1 := mat K (match c_f0 c with None => c_force c u2 | Some f => f end) in
    let u3 := match c_f0 c with None => u2 | Some f => mat K (c_disp c f) end in
    (* line 229 *)
    let f2 := mat K (fun p => if pad p then 0 else f1 p) in
    mkState f2 u3 (fun _ => 0) false Reset 1 (c_offset c) 0 (c_mixfac c) O
            None None O (S O).

  (** What the first part of the loop body (lines 244-332) produces. *)
  Record half := mkHalf {
    h_c : P -> bool; h_g : P -> F; h_f : P -> F; h_t : P -> F;
    h_G : F; h_tau : F; h_off : F; h_str : status;
    h_mixfac : F; h_mixsteps : nat; h_nfev : nat;
    h_Acontact : nat; h_Acg : nat }.

  (** Lines 244-256: active set. *)
  Definition contact_set (s : state) : P -> bool := fun p => s_f s p <? 0.
  Definition cg_set (s : state) : P -> bool := fun p =>
    match c_hard c with
    | None => s_f s p <? 0
    | Some h => (s_f s p <? 0) && (- hval h p <? s_f s p)
    end.

  (** Lines 258-263: Polonsky-Keer step or mixing step?
      [A_cg / A_contact > 0.01] is written as [A_contact < 100 * A_cg]. *)
  Definition do_cg (s : state) : bool :=
    match c_hard c with
    | None => true
    | Some _ =>
        let Ac := rcount (c_ranks c) (contact_set s) in
        let Acg := rcount (c_ranks c) (cg_set s) in
        Nat.ltb O Ac && Nat.ltb Ac (100 * Acg)%nat && Nat.leb (s_mixsteps s) O
    end.

  (** Lines 264-298: Polonsky-Keer step. *)
  Definition cg_half (s : state) : half :=
    let rk := c_ranks c in
    let Ac := rcount rk (contact_set s) in
    let cr := cg_set s in
    let Acg := rcount rk cr in
    let str := if is_mix (s_str s) then Sd else s_str s in
    (* lines 267-272 *)
    let g0 := mat K (fun p => s_u s p - c_h c p) in
    let off := match c_ext c with
               | None => s_off s
               | Some _ =>
                   if Nat.ltb O Acg
                   then rsum rk (fun p => bmul (comp p && cr p) (g0 p)) / onat K Acg
                   else 0
               end in
    let g := mat K (fun p => g0 p - off) in
    (* line 275 *)
    let G := rsum rk (fun p => bmul (comp p) (bmul (cr p) (g p * g p))) in
    (* lines 277-281; outside comp_mask t_r keeps its value *)
    let t := mat K (fun p =>
      if comp p then
        bmul (cr p)
          (if s_delta s && (0 <? s_Gold s)
           then g p + G / s_Gold s * s_t s p
           else g p)
      else s_t s p) in
    (* line 286 *)
    let r := mat K (c_disp c t) in
    (* lines 289-296 *)
    let x := - rsum rk (fun p => bmul (cr p) (r p * t p)) in
    let tau := if Nat.ltb O Acg then
                 if 0 <? x
                 then rsum rk (fun p => bmul (comp p) (bmul (cr p) (g p * t p))) / x
                 else 0
               else 0 in
    let G' := if Nat.ltb O Acg then (if 0 <? x then G else 0) else G in
    (* line 298 *)
    let f := mat K (fun p => s_f s p + bmul (cr p) (tau * t p)) in
    mkHalf cr g f t G' tau off str (c_mixfac c) (s_mixsteps s)
           (S (s_nfev s)) Ac Acg.

  (** Lines 302-332: mixing step (only reached if a hardness is given). *)
  Definition mix_half (hd : hardness_arg F P) (s : state) : result half :=
    let rk := c_ranks c in
    let Ac := rcount rk (contact_set s) in
    let Acg := rcount rk (cg_set s) in
    let cr0 := cg_set s in
    let ms := if is_mix (s_str s) then s_mixsteps s else c_minmix c in
    let g0 := mat K (fun p => s_u s p - c_h c p) in
    let off : result F :=
      match c_ext c with
      | None => Ok (s_off s)
      | Some Fx =>
          match hd with
          | HArray _ => Raise TypeError   (* bisect needs a scalar function *)
          | HScalar H =>
              match rmax rk comp g0, rmin rk comp g0 with
              | Some a, Some b =>
                  match c_bisect c
                    (fun x => onat K (rcount rk (fun p => comp p && (g0 p - x <? 0)))
                              * H - Fx) a b with
                  | Some y => Ok y
                  | None => Raise ValueError
                  end
              | _, _ => Raise ValueError
              end
          end
      end in
    match off with
    | Raise e => Raise e
    | Ok off =>
        let g := mat K (fun p => g0 p - off) in
        let cr := fun p => if comp p then g p <? 0 else cr0 p in
        let m := s_mixfac s in
        let f := mat K (fun p => (1 - m) * s_f s p - m * bmul (cr p) (hval hd p)) in
        Ok (mkHalf cr g f (s_t s) 0 (s_tau s) off Mix (m * c_mixdec c)
                   (Nat.pred ms) (s_nfev s) Ac Acg)
    end.

  Definition first_half (s : state) : result half :=
    match c_hard c with
    | None => Ok (cg_half s)
    | Some hd => if do_cg s then Ok (cg_half s) else mix_half hd s
    end.

  (** Lines 334-341. *)
  Definition mask_tensile (h : half) (p : P) : bool := 0 <=? h_f h p.
  Definition mask_flowing (h : half) (p : P) : bool :=
    match c_hard c with
    | None => false
    | Some hd => h_f h p <=? - hval hd p
    end.
  Definition nc_set (h : half) (p : P) : bool :=
    comp p && ((mask_tensile h p && (h_g h p <? 0))
               || (mask_flowing h p && (0 <? h_g h p))).

  (** Lines 343-347. *)
  Definition pad_pres (h : half) : F :=
    if Nat.ltb O (rcount (c_ranks c) pad) then
      match rmax (c_ranks c) pad (fun p => absF (h_f h p)) with
      | Some x => x | None => 0 end
    else 0.

  (** Lines 349-357.  [if hardness:] is the truth value of the argument: it
      raises ValueError for an array (more than one entry) and is False for a
      scalar 0. *)
  Definition max_pres (h : half) : result F :=
    let rk := c_ranks c in
    let mp0 := if Nat.ltb O (rcount rk (mask_tensile h)) then
                 match rmax rk (mask_tensile h) (h_f h) with
                 | Some x => x | None => 0 end
               else 0 in
    match c_hard c with
    | None => Ok mp0
    | Some (HArray _) => Raise ValueError
    | Some (HScalar H) =>
        if H =? 0 then Ok mp0
        else if Nat.ltb O (rcount rk (mask_flowing h)) then
          match rmin rk (mask_flowing h) (fun p => h_f h p + H) with
          | Some x => Ok (maxF mp0 (- x))
          | None => Ok mp0
          end
        else Ok mp0
    end.

  (** Lines 359-387: constrain the forces. *)
  Definition clip_tensile (h : half) : P -> F :=
    mat K (fun p => if mask_tensile h p then 0 else h_f h p).
  Definition adjust_force (f : P -> F) : P -> F :=
    match c_ext c with
    | None => f
    | Some Fx =>
        let tot := - rsum (c_ranks c) (fun p => bmul (comp p) (f p)) in
        mat K (if tot =? 0
               then (fun p => if pad p then 0 else - Fx / onat K (c_nsurf c))
               else (fun p => f p * (Fx / tot)))
    end.
  Definition clip_flow (h : half) (f : P -> F) : P -> F :=
    match c_hard c with
    | None => f
    | Some hd => mat K (fun p => if mask_flowing h p then - hval hd p else f p)
    end.
  Definition any_nc (h : half) : bool := Nat.ltb O (rcount (c_ranks c) (nc_set h)).
  Definition new_force (h : half) : P -> F :=
    let f3 := clip_flow h (adjust_force (clip_tensile h)) in
    if is_mix (h_str h) then f3
    else if any_nc h
         then mat K (fun p => if comp p then f3 p + h_tau h * bmul (nc_set h p) (h_g h p)
                              else f3 p)
         else f3.
  Definition new_str (h : half) : status :=
    if is_mix (h_str h) then Mix else if any_nc h then Sd else Cg.
  Definition new_delta (h : half) : bool :=
    if is_mix (h_str h) then false else negb (any_nc h).
  Definition new_G (h : half) : F := if is_mix (h_str h) then 0 else h_G h.

  (** [abs(num / den) < tol]; a zero denominator gives inf or nan in numpy and
      the comparison is False. *)
  Definition rel_lt (num den tol : F) : bool :=
    if den =? 0 then false else absF (num / den) <? tol.

  (** Values reported to logger and callback (lines 448-493). *)
  Record report := mkReport {
    r_it : nat; r_str : status; r_Acontact : nat; r_Acg : nat;
    r_total : F; r_off : F; r_maxpen : F; r_maxpres : F; r_padpres : F;
    r_maxdu : option F; r_tau : F;
    r_Afl : nat;               (* A_fl, line 354 *)
    r_ms : F;                  (* rms_pen ** 2, lines 408-411 *)
    r_nc : nat;                (* reduction.sum(nc_r * 1) *)
    r_mixfac : F }.

  (** Result of the second part of the loop body. *)
  Record full := mkFull {
    fu_state : state; fu_half : half; fu_conv : bool; fu_rep : report }.

  (** Lines 334-446: second part of the loop body.  [rms_pen < pentol] with
      [rms_pen = sqrt(G / A_cg)] is written without the square root. *)
  Definition second_half (s : state) (h : half) : result full :=
    let rk := c_ranks c in
    match max_pres h with
    | Raise e => Raise e
    | Ok mp =>
        let f := new_force h in
        let u := mat K (c_disp c f) in
        let maxdu := rmax rk (fun _ => true) (fun p => absF (u p - s_u s p)) in
        let G := new_G h in
        let ms_pen := if Nat.ltb O (h_Acg h) then G / onat K (h_Acg h) else G in
        let rms_ok := (0 <? c_pentol c) && (ms_pen <? c_pentol c * c_pentol c) in
        let maxpen :=
          match rmax rk comp
                     (fun p => bmul (h_c h p) (c_h c p + h_off h - u p)) with
          | Some x => maxF 0 x | None => 0 end in
        let tot := - rsum rk (fun p => bmul (comp p) (f p)) in
        let conv_force :=
          match c_ext c with
          | Some Fx => rel_lt (tot - Fx) tot (c_thermotol c)
          | None => match s_lasttf s with
                    | Some l => rel_lt (tot - l) tot (c_thermotol c)
                    | None => true
                    end
          end in
        let mh := match rmax rk comp (c_h c) with
                  | Some x => Some (x + h_off h) | None => None end in
        let conv_height :=
          match c_ext c, s_lastmh s with
          | Some _, Some l =>
              match mh, l with
              | Some x, Some y => rel_lt (x - y) x (c_thermotol c)
              | _, _ => false
              end
          | _, _ => true
          end in
        let conv_tol :=
          if is_mix (h_str h)
          then oltb_inf maxdu (c_pentol c) && (mp <? c_forcetol c)
               && (pad_pres h <? c_forcetol c)
          else rms_ok && (maxpen <? c_pentol c) && oltb_inf maxdu (c_pentol c)
               && (mp <? c_forcetol c) && (pad_pres h <? c_forcetol c) in
        let s' := mkState f u (h_t h) (new_delta h) (new_str h) G (h_off h)
                    (h_tau h) (h_mixfac h) (h_mixsteps h) (Some mh) (Some tot)
                    (S (s_nit s)) (S (h_nfev h)) in
        Ok (mkFull s' h (conv_force && conv_height && conv_tol)
              (mkReport (S (s_nit s)) (new_str h) (h_Acontact h) (h_Acg h)
                        tot (h_off h) maxpen mp (pad_pres h) maxdu (h_tau h)
                        (rcount rk (mask_flowing h)) ms_pen (rcount rk (nc_set h)) (h_mixfac h)))
    end.

  (** One iteration of the loop, lines 242-500. *)
  Definition iter (s : state) : result full :=
    match first_half s with
    | Raise e => Raise e
    | Ok h => second_half s h
    end.

  (** Result object (lines 214-219, 461-484, 494-509). *)
  Inductive message := PolonskyConverged | ReachedMaxiter (n : nat).
  Record sresult := mkResult {
    x_x : P -> F;
    x_jac : P -> F;            (* meaningful on c_slice only *)
    x_active : P -> bool;
    x_plastic : option (P -> bool);
    x_fun : F;
    x_offset : F;
    x_success : bool;
    x_message : message;
    x_nit : nat; x_nfev : nat;
    x_maxpen : F; x_maxpres : F;
    (* not in the Python result, but in its last log line: status and tau of
       the last iteration (lines 448-466) *)
    x_str : status; x_tau : F }.

  Definition energy (s : state) : F :=
    - rsum (c_ranks c) (fun p => bmul (c_slice c p) (s_f s p * s_u s p)) / (1 + 1).

  Definition converged_result (fu : full) : sresult :=
    let s := fu_state fu in
    let h := fu_half fu in
    mkResult (s_u s) (fun p => - s_f s p)
      (if is_mix (s_str s)
       then (fun p => if comp p then h_g h p <? 0 else h_c h p) else h_c h)
      (match c_hard c with
       | None => None
       | Some _ => Some (fun p => comp p && (h_g h p <? 0))
       end)
      (energy s) (s_off s) true PolonskyConverged (s_nit s) (s_nfev s)
      (r_maxpen (fu_rep fu)) (r_maxpres (fu_rep fu)) (s_str s) (s_tau s).

  Definition failed_result (maxiter : nat) (fu : full) : sresult :=
    let s := fu_state fu in
    mkResult (s_u s) (fun p => - s_f s p) (h_c (fu_half fu)) None
      (energy s) (s_off s) false (ReachedMaxiter maxiter) (s_nit s) (s_nfev s)
      (r_maxpen (fu_rep fu)) (r_maxpres (fu_rep fu)) (s_str s) (s_tau s).

  (** Observable calls: logger.st (with the label put in the status column and
      force_print) and callback (lines 461-463, 485-498, 502-503). *)
  Inductive label := LStatus (s : status) | LConverged | LNotConverged.
  Inductive event :=
  | ELog (l : label) (forced : bool) (r : report)
  | ECallback (it : nat) (f : P -> F) (r : report).

  (** The [for] loop, lines 242-509.  [fuel] is the number of iterations left,
      [last] the outcome of the preceding iteration; when the range is
      exhausted before any iteration, [log_values] is unbound (line 502). *)
  Fixpoint loop (maxiter fuel : nat) (s : state) (last : option full)
    : list event * result sresult :=
    match fuel with
    | O => match last with
           | None => ([], Raise UnboundLocalError)
           | Some fu => ([ELog LNotConverged true (fu_rep fu)],
                         Ok (failed_result maxiter fu))
           end
    | S n =>
        match iter s with
        | Raise e => ([], Raise e)
        | Ok fu =>
            if fu_conv fu
            then ([ELog LConverged true (fu_rep fu)], Ok (converged_result fu))
            else
              let ev :=
                (if Nat.ltb (s_nit (fu_state fu)) maxiter
                 then [ELog (LStatus (s_str (fu_state fu))) false (fu_rep fu)]
                 else [])
                ++ [ECallback (s_nit (fu_state fu)) (s_f (fu_state fu)) (fu_rep fu)] in
              let '(evs, r) := loop maxiter n (fu_state fu) (Some fu) in
              (ev ++ evs, r)
        end
    end.

  Definition run_trace (maxiter : nat) : list event * result sresult :=
    loop maxiter maxiter init_state None.
  Definition run (maxiter : nat) : result sresult := snd (run_trace maxiter).

End Model.

(** ** Front end: argument processing, lines 134-205.

    [a_distributed]: nb_subdomain_grid_pts <> nb_domain_grid_pts;
    [a_plain_array]: the topography has no attribute nb_grid_pts;
    [a_rms]: topography.rms_height_from_area();
    [a_mean_n]: np.mean(topography.nb_grid_pts);
    [a_maxiter]: [None] is Python's None, which [range] rejects. *)
Record args (F P : Type) := mkArgs {
  a_distributed : bool;
  a_plain_array : bool;
  a_dim : nat;
  a_offset : option F;
  a_pentol : option F;
  a_rms : F;
  a_mean_n : F;
  a_maxiter : option nat }.
Arguments a_distributed {F P}. Arguments a_plain_array {F P}.
Arguments a_dim {F P}. Arguments a_offset {F P}. Arguments a_pentol {F P}.
Arguments a_rms {F P}. Arguments a_mean_n {F P}. Arguments a_maxiter {F P}.

Section FrontEnd.
  Context {F P : Type}.
  Variable K : Ops F P.

  (** Lines 161-174.  [hsum] is [reduction.sum(heights[...])] (the sum of the
      unmasked heights), [n] the number of surface points. *)
  Definition choose_pentol (a : args F P) (hsum : F) (n : nat) : result F :=
    match a_pentol a with
    | Some t => Ok t
    | None =>
        let t1 := odiv K (a_rms a) (omul K (onat K 10) (a_mean_n a)) in
        if oeqb K t1 (o0 K) then
          match a_offset a with
          | None => Raise TypeError          (* None + float *)
          | Some off =>
              let t2 := odiv K (oadd K off (odiv K hsum (onat K n))) (onat K 1000) in
              if oeqb K t2 (o0 K)
              then Ok (odiv K (o1 K) (onat K 1000))
              else Ok t2
          end
        else Ok t1
    end.

  (** Whole call.  [k] supplies the remaining configuration once [offset] and
      [pentol] are known. *)
  Definition solve_trace (a : args F P) (k : F -> F -> cfg (F:=F) (P:=P))
             (hsum : F) (n : nat)
    : list (event (F:=F) (P:=P)) * result (sresult (F:=F) (P:=P)) :=
    if a_distributed a && a_plain_array a then ([], Raise ValueError)
    else
      match choose_pentol a hsum n with
      | Raise e => ([], Raise e)
      | Ok pt =>
          let off := match a_offset a with None => o0 K | Some o => o end in
          if negb (Nat.eqb (a_dim a) 1 || Nat.eqb (a_dim a) 2)
          then ([], Raise GenericException)
          else match a_maxiter a with
               | None => ([], Raise TypeError)     (* None + 1 *)
               | Some m => run_trace K (k off pt) m
               end
      end.
  Definition solve a k hsum n := snd (solve_trace a k hsum n).
End FrontEnd.
