(** * Model of selecting frames, /repo/ContactMechanics/IO/NetCDF.py

    Simplifications: texts have characters below 256; [int] accepts any number of
    digits (Python stops at 4300). *)
From Coq Require Import Reals ZArith Lia List Arith Bool String Ascii.
From Verif Require Import Py Logger_Model NetCDF_Model.
Import ListNotations.
Local Open Scope Z_scope.

(** ** Slices *)

(** [slice.indices(n)] of Python. *)
Definition adjust (lower upper : Z) (n : nat) (default : Z) (a : option Z) : Z :=
  match a with
  | None => default
  | Some z => if z <? 0 then Z.max lower (z + Z.of_nat n) else Z.min upper z
  end.
Definition slice_indices (a b s : option Z) (n : nat) : res (Z * Z * Z) :=
  let step := match s with None => 1 | Some z => z end in
  if step =? 0 then Exc ValueErr
  else
    let lower := if step <? 0 then -1 else 0 in
    let upper := if step <? 0 then Z.of_nat n - 1 else Z.of_nat n in
    Ret (adjust lower upper n (if step <? 0 then upper else lower) a,
         adjust lower upper n (if step <? 0 then lower else upper) b, step).

(** [range(start, stop, step)] of Python. *)
Definition range_length (start stop step : Z) : nat :=
  if 0 <? step
  then if start <? stop then Z.to_nat ((stop - start - 1) / step + 1) else 0%nat
  else if stop <? start then Z.to_nat ((start - stop - 1) / (- step) + 1) else 0%nat.
Definition range_list (start stop step : Z) : list Z :=
  map (fun k => start + Z.of_nat k * step) (seq 0 (range_length start stop step)).

(** [__getitem__] of the container with a slice, lines 371-373, as the list of the
    indices of the frames. *)
Fixpoint frame_indices (l : list Z) (c : container) : res (list Z) :=
  match l with
  | [] => Ret []
  | i :: l' => bind (frame_index i c) (fun j => bind (frame_indices l' c) (fun r => Ret (j :: r)))
  end.
Definition get_slice (a b s : option Z) (c : container) : res (list Z) :=
  bind (length_of c) (fun n =>
  bind (slice_indices a b s n) (fun t => let '(start, stop, step) := t in
  frame_indices (range_list start stop step) c)).

(** ** [open], lines 392-403 *)

(** [int(s)] *)
Fixpoint underscores (s : text) : option text :=
  match s with
  | [] => None
  | c :: s' =>
      if is_digit c then
        match s' with
        | [] => Some [c]
        | d :: s'' => option_map (cons c) (if Ascii.eqb d "_"%char then underscores s'' else underscores s')
        end
      else None
  end.
Definition parse_int (s : text) : res Z :=
  let digits t := option_map nat_value (underscores t) in
  match match strip_space s with
        | c :: t => if Ascii.eqb c "-"%char then option_map Z.opp (digits t)
                    else if Ascii.eqb c "+"%char then digits t else digits (c :: t)
        | [] => None
        end with
  | Some z => Ret z
  | None => Exc ValueErr
  end.

(** The text before and behind the first [@]. *)
Fixpoint cut (s : string) : option (string * string) :=
  match s with
  | EmptyString => None
  | String a s' => if Ascii.eqb a "@"%char then Some (EmptyString, s')
                   else option_map (fun p => (String a (fst p), snd p)) (cut s')
  end.

(** A container, or a frame of it. *)
Inductive opened := OContainer (c : container) | OFrame (c : container) (i : Z).
Definition select (i : Z) (o : disk * res container) : disk * res opened :=
  (fst o, bind (snd o) (fun c => bind (frame_index i c) (fun j => Ret (OFrame c j)))).
(** The container gets no starting frame: [frame] is taken by [open] itself. *)
Definition open_name (fn : string) (m : mode) (frame : option Z) (double : bool) (k : disk) : disk * res opened :=
  match cut fn with
  | Some (String a p, q) =>
      match parse_int (list_ascii_of_string q) with
      | Exc e => (k, Exc e)
      | Ret n => select n (open_container (String a p) 0 double m k)
      end
  | _ =>
      match frame with
      | Some n => select n (open_container fn 0 double m k)
      | None => let o := open_container fn 0 double m k in (fst o, bind (snd o) (fun c => Ret (OContainer c)))
      end
  end.
(** [open] of a container. *)
Definition open_open (c : container) (m : mode) (frame : option Z) (double : bool) (k : disk) : disk * res opened :=
  (k, Ret (OContainer c)).
(** [frame.name] *)
Definition read_opened (o : opened) (name : string) : res (option (list nat * list R)) :=
  match o with OFrame c i => get_frame i name c | OContainer _ => left_out end.
