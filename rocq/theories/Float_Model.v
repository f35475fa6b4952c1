(** * The contact solver in floating point arithmetic

    Second model of [/repo/ContactMechanics/Optimization/ConstrainedConjugateGradients.py],
    lines 175-509, operation by operation, in an arithmetic with comparisons
    that can fail both ways (nan).  CCG_Model.v works with exact numbers and
    any number of processes; here numbers are floating point numbers, there
    is one process, and the hardness is a number.

    Simplifications:
    - [True * x] is [x] (multiplication by 1.0 is exact), [False * x] is
      [0.0 * x];
    - [sqrt] is total ([math.sqrt] raises for negative numbers, [G] is a sum of
      squares);
    - a compressed array [a[mask]] is the list of its values in the order of
      the grid points [k_pts]. *)
From Coq Require Import List Bool Arith.
Import ListNotations.

(** Scalar operations, conversion of ints, the literal 0.01, and [np.sum],
    [np.max], [np.min] of an array given as a list. *)
Record Arith (F : Type) := mkArith {
  a0 : F; a1 : F; acent : F;
  aadd : F -> F -> F; asub : F -> F -> F; amul : F -> F -> F; adiv : F -> F -> F;
  aopp : F -> F; aabs : F -> F; asqrt : F -> F;
  alt : F -> F -> bool; ale : F -> F -> bool; aeq : F -> F -> bool;
  anat : nat -> F;
  asum : list F -> F; amax : list F -> F; amin : list F -> F }.
Arguments a0 {F}. Arguments a1 {F}. Arguments acent {F}.
Arguments aadd {F}. Arguments asub {F}. Arguments amul {F}. Arguments adiv {F}.
Arguments aopp {F}. Arguments aabs {F}. Arguments asqrt {F}.
Arguments alt {F}. Arguments ale {F}. Arguments aeq {F}.
Arguments anat {F}. Arguments asum {F}. Arguments amax {F}. Arguments amin {F}.

(** delta_str. *)
Inductive fstatus := FReset | FSd | FCg | FMix.
Definition fmix (s : fstatus) : bool := match s with FMix => true | _ => false end.

(** Exceptions: 'nan encountered' (line 500), [log_values] unbound (line 502),
    ValueError of [bisect]. *)
Inductive fexn := NanEncountered | Unbound | BisectError.

Section Model.
  Context {F P : Type}.
  Variable K : Arith F.
  Local Notation "0" := (a0 K).
  Local Infix "+" := (aadd K).
  Local Infix "-" := (asub K).
  Local Infix "*" := (amul K).
  Local Infix "/" := (adiv K).
  Local Notation "- x" := (aopp K x).
  Local Infix "<?" := (alt K).
  Local Infix "<=?" := (ale K).
  Local Infix "=?" := (aeq K).

  Definition anan (x : F) : bool := negb (x =? x).
  (** numpy: bool array times float array. *)
  Definition btimes (b : bool) (x : F) : F := if b then x else 0 * x.
  (** Python's [max(a, b)]. *)
  Definition pymax (a b : F) : F := if a <? b then b else a.

  (** Inputs; names as in [CCG_Model.cfg]. *)
  Record fcfg := mkFcfg {
    k_pts : list P;
    k_slice : P -> bool;
    k_masked : P -> bool;
    k_h : P -> F;
    k_disp : (P -> F) -> (P -> F);
    k_force : (P -> F) -> (P -> F);
    k_hard : option F;
    k_ext : option F;
    k_offset : F;
    k_u0 : option (P -> F);
    k_f0 : option (P -> F);
    k_pentol : F; k_forcetol : F; k_thermotol : F;
    k_mixfac : F; k_mixdec : F;
    k_minmix : nat;
    k_nsurf : nat;
    k_bisect : (F -> F) -> F -> F -> option F }.
  Variable c : fcfg.

  (** Lines 188-210. *)
  Definition fcomp (p : P) : bool := k_slice c p && negb (k_masked c p).
  Definition fpad (p : P) : bool := negb (fcomp p).
  Definition vals (m : P -> bool) (phi : P -> F) : list F := map phi (filter m (k_pts c)).
  Definition count (m : P -> bool) : nat := length (filter m (k_pts c)).
  Definition everywhere (p : P) : bool := true.

  Record fstate := mkFstate {
    z_f : P -> F; z_u : P -> F; z_t : P -> F;
    z_delta : bool; z_str : fstatus; z_Gold : F; z_off : F; z_tau : F;
    z_mixfac : F; z_mixsteps : nat;
    z_lastmh : option F; z_lasttf : option F;
    z_nit : nat; z_nfev : nat }.

  (** Lines 175-240. *)
  Definition fstart : fstate :=
    let u1 := match k_u0 c with None => fun _ => 0 | Some u => u end in
    let u2 := fun p =>
      if fcomp p then (if u1 p <? k_h c p + k_offset c then k_h c p + k_offset c else u1 p)
      else u1 p in
    let f1 := match k_f0 c with None => k_force c u2 | Some f => f end in
    let u3 := match k_f0 c with None => u2 | Some f => k_disp c f end in
    mkFstate (fun p => if fpad p then 0 else f1 p) u3 (fun _ => 0) false FReset (a1 K)
             (k_offset c) 0 (k_mixfac c) O None None O (S O).

  (** Lines 247-256. *)
  Definition fcontact (s : fstate) (p : P) : bool := z_f s p <? 0.
  Definition fcg (s : fstate) (p : P) : bool :=
    match k_hard c with
    | None => z_f s p <? 0
    | Some H => (z_f s p <? 0) && (- H <? z_f s p)
    end.
  (** Line 263. *)
  Definition fdo_cg (s : fstate) : bool :=
    match k_hard c with
    | None => true
    | Some _ =>
        Nat.ltb O (count (fcontact s))
        && (acent K <? anat K (count (fcg s)) / anat K (count (fcontact s)))
        && Nat.leb (z_mixsteps s) O
    end.

  (** Variables after the first half of the loop body. *)
  Record fhalf := mkFhalf {
    y_c : P -> bool; y_g : P -> F; y_f : P -> F; y_t : P -> F;
    y_G : F; y_tau : F; y_off : F; y_str : fstatus;
    y_mixfac : F; y_mixsteps : nat; y_nfev : nat; y_Acg : nat }.

  (** Lines 264-301. *)
  Definition fcg_half (s : fstate) : fhalf :=
    let cr := fcg s in
    let Acg := count cr in
    let str := if fmix (z_str s) then FSd else z_str s in
    let g0 := fun p => z_u s p - k_h c p in
    let off := match k_ext c with
               | None => z_off s
               | Some _ => if Nat.ltb O Acg
                           then asum K (vals (fun p => fcomp p && cr p) g0) / anat K Acg
                           else 0
               end in
    let g := fun p => g0 p - off in
    let G := asum K (vals fcomp (fun p => btimes (cr p) (g p) * g p)) in
    let t := fun p =>
      if fcomp p then
        btimes (cr p) (if z_delta s && (0 <? z_Gold s)
                       then g p + a1 K * (G / z_Gold s) * z_t s p else g p)
      else z_t s p in
    let r := k_disp c t in
    let x := - asum K (vals everywhere (fun p => btimes (cr p) (r p) * t p)) in
    let curved := Nat.ltb O Acg && (0 <? x) in
    let tau := if curved
               then asum K (vals fcomp (fun p => btimes (cr p) (g p) * t p)) / x else 0 in
    let G' := if Nat.ltb O Acg && negb (0 <? x) then 0 else G in
    let f := fun p => z_f s p + btimes (cr p) tau * t p in
    mkFhalf cr g f t G' tau off str (k_mixfac c) (z_mixsteps s) (S (z_nfev s)) Acg.

  (** Lines 302-332.  [tau * c_r] above and [current_mixfac * hardness * c_r]
      here multiply a number by a bool array. *)
  Definition fmix_half (H : F) (s : fstate) : fhalf + fexn :=
    let cr0 := fcg s in
    let ms := if fmix (z_str s) then z_mixsteps s else k_minmix c in
    let g0 := fun p => z_u s p - k_h c p in
    let off := match k_ext c with
               | None => Some (z_off s)
               | Some Fx => k_bisect c
                   (fun x => anat K (count (fun p => fcomp p && (g0 p - x <? 0))) * H - Fx)
                   (amax K (vals fcomp g0)) (amin K (vals fcomp g0))
               end in
    match off with
    | None => inr BisectError
    | Some off =>
        let g := fun p => g0 p - off in
        let cr := fun p => if fcomp p then g p <? 0 else cr0 p in
        let m := z_mixfac s in
        let f := fun p => (a1 K - m) * z_f s p - btimes (cr p) (m * H) in
        inl (mkFhalf cr g f (z_t s) 0 (z_tau s) off FMix (m * k_mixdec c)
                     (Nat.pred ms) (z_nfev s) (count cr0))
    end.

  Definition ffirst (s : fstate) : fhalf + fexn :=
    match k_hard c with
    | None => inl (fcg_half s)
    | Some H => if fdo_cg s then inl (fcg_half s) else fmix_half H s
    end.

  (** Lines 336-342. *)
  Definition ftensile (h : fhalf) (p : P) : bool := 0 <=? y_f h p.
  Definition fflow (h : fhalf) (p : P) : bool :=
    match k_hard c with None => false | Some H => y_f h p <=? - H end.
  Definition fnc (h : fhalf) (p : P) : bool :=
    fcomp p && ((ftensile h p && (y_g h p <? 0)) || (fflow h p && (0 <? y_g h p))).
  Definition fany_nc (h : fhalf) : bool := Nat.ltb O (count (fnc h)).

  (** Lines 344-360. *)
  Definition fpad_pres (h : fhalf) : F :=
    if Nat.ltb O (count fpad) then amax K (vals fpad (fun p => aabs K (y_f h p))) else 0.
  Definition fmax_pres (h : fhalf) : F :=
    let mp := if Nat.ltb O (count (ftensile h)) then amax K (vals (ftensile h) (y_f h)) else 0 in
    match k_hard c with
    | None => mp
    | Some H =>
        if H =? 0 then mp
        else if Nat.ltb O (count (fflow h))
             then pymax mp (- amin K (vals (fflow h) (fun p => y_f h p + H)))
             else mp
    end.

  (** Lines 362-396. *)
  Definition fclip (h : fhalf) (p : P) : F := if ftensile h p then 0 else y_f h p.
  Definition fadjust (f : P -> F) : P -> F :=
    match k_ext c with
    | None => f
    | Some Fx =>
        let tot := - asum K (vals fcomp f) in
        if tot =? 0 then fun p => if fpad p then 0 else - Fx / anat K (k_nsurf c)
        else fun p => f p * (Fx / tot)
    end.
  Definition fclip_flow (h : fhalf) (f : P -> F) (p : P) : F :=
    match k_hard c with
    | None => f p
    | Some H => if fflow h p then - H else f p
    end.
  Definition fnew_force (h : fhalf) : P -> F :=
    let f3 := fclip_flow h (fadjust (fclip h)) in
    if fmix (y_str h) then f3
    else if fany_nc h
         then fun p => if fcomp p then f3 p + btimes (fnc h p) (y_tau h) * y_g h p else f3 p
         else f3.
  Definition fnew_str (h : fhalf) : fstatus :=
    if fmix (y_str h) then FMix else if fany_nc h then FSd else FCg.
  Definition fnew_delta (h : fhalf) : bool := if fmix (y_str h) then false else negb (fany_nc h).
  Definition fnew_G (h : fhalf) : F := if fmix (y_str h) then 0 else y_G h.

  (** Lines 398-446: the new state, the tests, and the numbers compared. *)
  Record ffull := mkFfull {
    w_state : fstate; w_half : fhalf;
    w_rms : F; w_maxpen : F; w_maxdu : F; w_maxpres : F; w_padpres : F;
    w_conv : bool }.
  Definition fsecond (s : fstate) (h : fhalf) : ffull :=
    let f := fnew_force h in
    let u := k_disp c f in
    let maxdu := amax K (vals everywhere (fun p => aabs K (u p - z_u s p))) in
    let G := fnew_G h in
    let rms := if Nat.ltb O (y_Acg h) then asqrt K (G / anat K (y_Acg h)) else asqrt K G in
    let maxpen := pymax 0 (amax K (vals fcomp
                    (fun p => btimes (y_c h p) (k_h c p + y_off h - u p)))) in
    let tot := - asum K (vals fcomp f) in
    let conv_force :=
      match k_ext c with
      | Some Fx => aabs K ((tot - Fx) / tot) <? k_thermotol c
      | None => match z_lasttf s with
                | Some l => aabs K ((tot - l) / tot) <? k_thermotol c
                | None => true
                end
      end in
    let mh := amax K (vals fcomp (k_h c)) + y_off h in
    let conv_height :=
      match k_ext c, z_lastmh s with
      | Some _, Some l => aabs K ((mh - l) / mh) <? k_thermotol c
      | _, _ => true
      end in
    let common := (maxdu <? k_pentol c) && (fmax_pres h <? k_forcetol c)
                  && (fpad_pres h <? k_forcetol c) in
    let conv_tol := if fmix (y_str h) then common
                    else (rms <? k_pentol c) && (maxpen <? k_pentol c) && common in
    mkFfull (mkFstate f u (y_t h) (fnew_delta h) (fnew_str h) G (y_off h) (y_tau h)
               (y_mixfac h) (y_mixsteps h) (Some mh) (Some tot) (S (z_nit s)) (S (y_nfev h)))
      h rms maxpen maxdu (fmax_pres h) (fpad_pres h) (conv_force && conv_height && conv_tol).

  Definition fiter (s : fstate) : ffull + fexn :=
    match ffirst s with inr e => inr e | inl h => inl (fsecond s h) end.

  (** Result object; [o_full] is the whole force array, of which the Python
      result contains the part on [k_slice] with opposite sign, [o_jac]. *)
  Record foutcome := mkFout {
    o_success : bool; o_x : P -> F; o_jac : P -> F; o_full : P -> F; o_active : P -> bool;
    o_fun : F; o_offset : F; o_nit : nat; o_nfev : nat; o_str : fstatus;
    o_maxpen : F; o_maxpres : F;
    (* [tau], logged with the last iteration *)
    o_tau : F }.
  Definition fresult (b : bool) (w : ffull) : foutcome :=
    let s := w_state w in
    let h := w_half w in
    mkFout b (z_u s) (fun p => - z_f s p) (z_f s)
      (if b && fmix (z_str s) then fun p => if fcomp p then y_g h p <? 0 else y_c h p else y_c h)
      (- asum K (vals (k_slice c) (fun p => z_f s p * z_u s p)) / anat K 2)
      (z_off s) (z_nit s) (z_nfev s) (z_str s) (w_maxpen w) (w_maxpres w) (z_tau s).

  (** The loop, lines 242-509. *)
  Fixpoint floop (fuel : nat) (s : fstate) (last : option ffull) : foutcome + fexn :=
    match fuel with
    | O => match last with None => inr Unbound | Some w => inl (fresult false w) end
    | S n =>
        match fiter s with
        | inr e => inr e
        | inl w =>
            if w_conv w then inl (fresult true w)
            else if anan (z_Gold (w_state w)) || anan (w_rms w) then inr NanEncountered
            else floop n (w_state w) (Some w)
        end
    end.
  Definition frun (maxiter : nat) : foutcome + fexn := floop maxiter fstart None.
End Model.
