(** * Vocabulary of the NetCDF theorems *)
From Coq Require Import Reals ZArith List Arith Bool String Ascii.
From Verif Require Import Py Logger_Model NetCDF_Model.
Import ListNotations.
Local Open Scope Z_scope.

(** Everything a user can do with a container. [Reopen] closes it and opens the
    same file again, for reading ([rw] false) or for appending. *)
Inductive op :=
| SetFrame (i : Z) (name : string) (v : value)
| SetGrid (i : Z) (name : string) (shape : list nat) (l : list R) (x0 y0 : nat)
| SetShape (shape : list nat) (ndof : option nat)
| SetRigid (shape : list nat) (l : list R) (ndof : option nat)
| SetElastic (shape : list nat) (l : list R)
| SetFile (name : string) (v : value)
| NextFrame
| SetCursor (z : Z)
| Sync
| Close
| Reopen (rw : bool) (frame : Z) (double : bool).

Section Session.
  Variable ov : Z -> R.
  Variable subnormal : R -> R.

  (** Exceptions do not end the session. *)
  Definition step (o : op) (st : container * disk) : container * disk :=
    let (c, k) := st in
    match o with
    | SetFrame i name v => (fst (set_frame ov subnormal i name v c), k)
    | SetGrid i name sh l x0 y0 => (fst (set_grid ov subnormal i name sh l x0 y0 c), k)
    | SetShape sh n => (fst (set_shape sh n c), k)
    | SetRigid sh l n => (fst (set_rigid sh l n c), k)
    | SetElastic sh l => (fst (set_elastic sh l c), k)
    | SetFile name v => (fst (set_file name v c), k)
    | NextFrame => (fst (next_frame c), k)
    | SetCursor z => (with_cur z c, k)
    | Sync => (c, fst (sync c k))
    | Close => let (k', c') := close c k in (c', k')
    | Reopen rw frame double =>
        let (k', c') := close c k in
        match open_container (c_fn c) frame double (if rw then Append else Read) k' with
        | (k'', Ret c'') => (c'', k'')
        | (k'', Exc _) => (c', k'')
        end
    end.
  Fixpoint session (os : list op) (st : container * disk) : container * disk :=
    match os with [] => st | o :: os' => session os' (step o st) end.

  (** The frames written successfully in a session. *)
  Definition wrote (o : op) (c : container) : list nat :=
    match o with
    | SetFrame i name v =>
        match private name, snd (set_frame ov subnormal i name v c) with
        | Ret false, Ret _ => [Z.to_nat i]
        | _, _ => []
        end
    | SetGrid i name sh l x0 y0 =>
        match snd (set_grid ov subnormal i name sh l x0 y0 c) with Ret _ => [Z.to_nat i] | Exc _ => [] end
    | _ => []
    end.
  Fixpoint frames_written (os : list op) (st : container * disk) : list nat :=
    match os with
    | [] => []
    | o :: os' => wrote o (fst st) ++ frames_written os' (step o st)
    end.
End Session.

(** The container is open. *)
Definition is_open (c : container) : Prop := c_data c <> None.

(** The type a value gets when it is the first one stored under its name. *)
Definition first_type (double : bool) (v : value) : dtype :=
  match v with
  | PInt _ => I4
  | PReal _ => F8
  | PArr [] _ => F8
  | PArr _ _ => if double then F8 else F4
  | POther => F8
  end.
(** The type of a name that is in use. *)
Definition type_in_use (c : container) (name : string) (t : dtype) : Prop :=
  exists d x, c_data c = Some d /\ assoc name (d_vars d) = Some x /\ v_type x = t.
Definition unused (c : container) (name : string) : Prop :=
  exists d, c_data c = Some d /\ assoc name (d_vars d) = None.

(** What is read when [v] was stored with type [t] in a variable whose frames
    have the shape [shape]: a number fills the whole frame. *)
Definition stored ov subnormal (t : dtype) (shape : list nat) (v : value) : option (list nat * list R) :=
  match v with
  | PInt z => Some (shape, repeat (store ov subnormal t (IZR z)) (fold_right Nat.mul 1%nat shape))
  | PReal x => Some (shape, repeat (store ov subnormal t x) (fold_right Nat.mul 1%nat shape))
  | PArr [] [x] => Some (shape, repeat (store ov subnormal t x) (fold_right Nat.mul 1%nat shape))
  | PArr sh l => Some (sh, map (store ov subnormal t) l)
  | POther => None
  end.

(** A two-dimensional file open for writing. *)
Definition two_dimensional (c : container) (nx ny : nat) : Prop :=
  c_writable c = true /\ c_defined c = true /\ c_shape c = Some [nx; ny] /\ c_shape2 c = Some (nx, ny)
  /\ exists d n, c_data c = Some d /\ d_frames d = Some n
     /\ assoc "nx"%string (d_dims d) = Some nx /\ assoc "ny"%string (d_dims d) = Some ny.

(** [k] calls of [get_next_frame]. *)
Fixpoint next_frames (k : nat) (c : container) : container * list (res Z) :=
  match k with
  | O => (c, [])
  | S k' => let (c1, r) := next_frame c in
            let (c2, rs) := next_frames k' c1 in (c2, r :: rs)
  end.

(** [for x in xs: container.get_next_frame().name = x] *)
Fixpoint append_all ov subnormal (name : string) (xs : list R) (c : container) : container * res unit :=
  match xs with
  | [] => (c, Ret tt)
  | x :: xs' =>
      match next_frame c with
      | (c1, Exc e) => (c1, Exc e)
      | (c1, Ret i) => match set_frame ov subnormal i name (PReal x) c1 with
                       | (c2, Exc e) => (c2, Exc e)
                       | (c2, Ret _) => append_all ov subnormal name xs' c2
                       end
      end
  end.

(** Values that fit into the variables of a two-dimensional file. *)
Definition fits (nx ny : nat) (v : value) : Prop :=
  match v with
  | PInt _ | PReal _ => True
  | PArr [] [_] => True
  | PArr sh _ => sh = [nx; ny]
  | POther => False
  end.
(** The shape of the frames of a name in use. *)
Definition shape_in_use (c : container) (name : string) (shape : list nat) : Prop :=
  exists d x, c_data c = Some d /\ assoc name (d_vars d) = Some x /\ v_framed x = true /\ v_shape x = shape.
