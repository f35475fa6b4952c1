(** * Model of /repo/ContactMechanics/IO/NetCDF.py

    A dataset has one unlimited dimension [frame], further dimensions, variables
    and global attributes. Every number is a real; arrays are flat lists in C
    order together with their shape.

    Simplifications:
    - the netCDF4 package is present (lines 35-38, 165-166), files are kept whole
      and become visible to later [open] calls by [sync] and [close];
    - files of the Amber convention cannot be opened: line 197 finds an object of
      netCDF4 and not a number, so line 198 raises TypeError; lines 94-98 and
      109-111 are never reached;
    - frame values are ints, reals, arrays of reals, and anything else;
      assigning an array of a shape other than that of the variable, using a
      frame to reach a variable without frames, and writing to indices that are
      negative after line 50 are left out (marked [left_out]);
    - single precision outside its normal range and 32-bit overflow are arbitrary
      functions;
    - names reserved by netCDF4 for global attributes are left out. *)
From Coq Require Import Reals ZArith Lia List Arith Bool String Ascii.
From Verif Require Import Py Logger_Model.
Import ListNotations.
Local Open Scope Z_scope.

(** ** Numbers on disk *)
Inductive dtype := I4 | F4 | F8.

(** Towards zero. *)
Definition trunc (x : R) : Z := if Rlt_dec x 0 then - Int_part (- x) else Int_part x.

Section Rounding.
  Variable ov : Z -> R.       (* 32-bit overflow *)
  Variable subnormal : R -> R. (* single precision outside the normal range *)

  Definition to_i4 (x : R) : R :=
    let z := trunc x in if andb (- 2 ^ 31 <=? z) (z <? 2 ^ 31) then IZR z else ov z.

  (** 24 binary digits, ties to even. *)
  Definition to_f4 (x : R) : R :=
    if Req_EM_T x 0 then 0%R
    else
      let e := Int_part (ln (Rabs x) / ln 2) in
      if andb (-126 <=? e) (e <? 127)
      then let m := (IZR (round_even (Rabs x * powerRZ 2 (23 - e))) * powerRZ 2 (e - 23))%R in
           if Rlt_dec x 0 then Ropp m else m
      else subnormal x.

  Definition store (t : dtype) (x : R) : R :=
    match t with I4 => to_i4 x | F4 => to_f4 x | F8 => x end.
End Rounding.

(** ** Values *)
Inductive value :=
| PInt (z : Z)
| PReal (x : R)
| PArr (shape : list nat) (data : list R)
| POther.

(** ** Datasets *)
Record variable := mkVar {
  v_type : dtype;
  v_framed : bool;                      (* first dimension is [frame] *)
  v_shape : list nat;                   (* the other dimensions *)
  v_data : nat -> option (list R) }.    (* by frame; not framed: frame 0 *)

Record dataset := mkData {
  d_dims : list (string * nat);
  d_frames : option nat;                (* None: there is no dimension [frame] *)
  d_vars : list (string * variable);
  d_attrs : list (string * value) }.

Fixpoint assoc {A} (k : string) (l : list (string * A)) : option A :=
  match l with
  | [] => None
  | (k', a) :: l' => if String.eqb k k' then Some a else assoc k l'
  end.
Fixpoint update {A} (k : string) (a : A) (l : list (string * A)) : list (string * A) :=
  match l with
  | [] => [(k, a)]
  | (k', b) :: l' => if String.eqb k k' then (k, a) :: l' else (k', b) :: update k a l'
  end.

Definition empty_data : dataset := mkData [] None [] [].
Definition size (shape : list nat) : nat := fold_right Nat.mul 1%nat shape.
Definition left_out {A} : res A := Exc GenericExc.

(** [createDimension] guarded by [if name not in dimensions], lines 231-238. *)
Definition add_dim (name : string) (n : nat) (d : dataset) : dataset :=
  match assoc name (d_dims d) with
  | Some _ => d
  | None => mkData (d_dims d ++ [(name, n)]) (d_frames d) (d_vars d) (d_attrs d)
  end.
Definition add_frames (d : dataset) : dataset :=
  match d_frames d with
  | Some _ => d
  | None => mkData (d_dims d) (Some 0%nat) (d_vars d) (d_attrs d)
  end.

(** [createVariable] of a new name; all dimensions must exist. *)
Fixpoint dim_sizes (names : list string) (d : dataset) : res (list nat) :=
  match names with
  | [] => Ret []
  | n :: names' => match assoc n (d_dims d) with
                   | None => Exc KeyErr
                   | Some k => bind (dim_sizes names' d) (fun l => Ret (k :: l))
                   end
  end.
Definition create (name : string) (t : dtype) (framed : bool) (dims : list string) (d : dataset) : res dataset :=
  if andb framed (match d_frames d with None => true | _ => false end) then Exc KeyErr
  else bind (dim_sizes dims d) (fun shape =>
    Ret (mkData (d_dims d) (d_frames d) (d_vars d ++ [(name, mkVar t framed shape (fun _ => None))]) (d_attrs d))).

(** ** Containers *)
Record container := mkCont {
  c_fn : string;
  c_data : option dataset;
  c_writable : bool;
  c_double : bool;
  c_defined : bool;
  c_shape : option (list nat);
  c_shape2 : option (nat * nat);
  c_cur : Z }.
Definition disk := list (string * dataset).

Definition with_data (d : dataset) (c : container) : container :=
  mkCont (c_fn c) (Some d) (c_writable c) (c_double c) (c_defined c) (c_shape c) (c_shape2 c) (c_cur c).
Definition with_cur (z : Z) (c : container) : container :=
  mkCont (c_fn c) (c_data c) (c_writable c) (c_double c) (c_defined c) (c_shape c) (c_shape2 c) z.
(** [self._data.x] after [close] is [None.x]. *)
Definition data (c : container) : res dataset :=
  match c_data c with Some d => Ret d | None => Exc AttributeErr end.
Definition writable (c : container) : res unit := if c_writable c then Ret tt else Exc RuntimeErr.
(** Access to the instance attribute [_shape], lines 335-336. *)
Definition shape_of (c : container) : res (list nat) :=
  match c_shape c with Some s => Ret s | None => Exc KeyErr end.
Definition shape2_of (c : container) : res (nat * nat) :=
  match c_shape2 c with Some s => Ret s | None => Exc KeyErr end.

(** [__len__], lines 266-271. *)
Definition length_of (c : container) : res nat :=
  bind (data c) (fun d => match d_frames d with Some n => Ret n | None => Exc KeyErr end).

(** [__init__], lines 160-213. *)
Inductive mode := Read | Write | Append.
Definition set_start (frame : Z) (c : container) : res container :=
  if frame <? 0 then bind (length_of c) (fun n => Ret (with_cur (Z.of_nat n + frame) c))
  else Ret (with_cur frame c).
Definition open_container (fn : string) (frame : Z) (double : bool) (m : mode) (k : disk) : disk * res container :=
  match m with
  | Write =>
      let d := mkData [] None [] [("program", POther); ("programVersion", POther)]%string in
      (update fn d k, set_start frame (mkCont fn (Some d) true double false None None 0))
  | _ =>
      match assoc fn k with
      | None => (k, Exc FileNotFoundErr)
      | Some d =>
          match assoc "nx"%string (d_dims d), assoc "ny"%string (d_dims d) with
          | Some nx, Some ny =>
              (k, set_start frame (mkCont fn (Some d) (match m with Read => false | _ => true end) double true
                     (Some [nx; ny]) (Some (nx, ny)) 0))
          | _, _ => (k, Exc (match assoc "atom"%string (d_dims d) with Some _ => TypeErr | None => RuntimeErr end))
          end
      end
  end.

(** [_define_file_structure], lines 219-242; shapes without two or three entries
    fail in line 227, after [_shape] has been set. *)
Definition define (shape : list nat) (c : container) : container * res unit :=
  let c1 := mkCont (c_fn c) (c_data c) (c_writable c) (c_double c) (c_defined c) (Some shape) (c_shape2 c) (c_cur c) in
  match shape with
  | [nx; ny] | [_; nx; ny] =>
      let ndof := match shape with [n; _; _] => n | _ => 1%nat end in
      let c2 := mkCont (c_fn c) (c_data c) (c_writable c) (c_double c) (c_defined c) (Some shape) (Some (nx, ny)) (c_cur c) in
      match c_data c with
      | None => (c2, Exc AttributeErr)
      | Some d =>
          let d1 := add_frames d in
          let d2 := if (1 <? ndof)%nat then add_dim "ndof"%string ndof d1 else d1 in
          let d3 := add_dim "ny"%string ny (add_dim "nx"%string nx d2) in
          (mkCont (c_fn c) (Some d3) (c_writable c) (c_double c) true (Some shape) (Some (nx, ny)) (c_cur c), Ret tt)
      end
  | _ => (c1, Exc ValueErr)
  end.

(** [np.all(np.array(a) == np.array(b))] for tuples of ints: a single number is
    compared with all entries, other lengths do not agree. *)
Definition all_equal (a b : list nat) : bool :=
  if Nat.eqb (List.length a) (List.length b)
  then forallb (fun p => Nat.eqb (fst p) (snd p)) (combine a b)
  else match a, b with
       | [x], _ => forallb (Nat.eqb x) b
       | _, [y] => forallb (Nat.eqb y) a
       | _, _ => false
       end.

(** [set_shape], lines 244-264. *)
Definition set_shape (shape : list nat) (ndof : option nat) (c : container) : container * res unit :=
  let full := match ndof with None | Some 1%nat => shape | Some n => n :: shape end in
  if c_defined c then
    match shape_of c with
    | Exc e => (c, Exc e)
    | Ret s => if all_equal full s then (c, Ret tt)
               else (c, Exc (match ndof with None | Some 1%nat => RuntimeErr | _ => AssertionErr end))
    end
  else define full c.

(** ** Frames *)

(** [NetCDFContainerFrame.__init__], lines 46-50. *)
Definition frame_index (i : Z) (c : container) : res Z :=
  if i <? 0 then bind (length_of c) (fun n => Ret (i + Z.of_nat n)) else Ret i.

(** [_create_if_missing], lines 52-90. *)
Definition float_type (c : container) : dtype := if c_double c then F8 else F4.
Definition create_if_missing (name : string) (v : value) (c : container) : res container :=
  bind (data c) (fun d =>
  match assoc name (d_vars d) with
  | Some _ => Ret c
  | None =>
      bind (writable c) (fun _ =>
      bind (match v with
            | PInt _ => create name I4 true [] d
            | PReal _ => create name F8 true [] d
            | PArr [] _ => create name F8 true [] d
            | PArr sh _ =>
                bind (shape_of c) (fun s =>
                if andb (Nat.eqb (List.length sh) (List.length s)) (all_equal sh s) then
                  if Nat.eqb (List.length s) 3
                  then create name (float_type c) true ["ndof"; "nx"; "ny"]%string d
                  else create name (float_type c) true ["nx"; "ny"]%string d
                else if Nat.eqb (List.length sh) 2 then
                  bind (shape2_of c) (fun s2 =>
                  if all_equal sh [fst s2; snd s2]
                  then create name (float_type c) true ["nx"; "ny"]%string d
                  else Exc RuntimeErr)
                else Exc RuntimeErr)
            | POther => Exc RuntimeErr
            end) (fun d' => Ret (with_data d' c)))
  end).

(** [variables[name][i] = value] for a variable with frames; longer files are
    padded with missing values. *)
Definition same_shape (a b : list nat) : bool := if list_eq_dec Nat.eq_dec a b then true else false.
Definition flat (v : value) (shape : list nat) : res (list R) :=
  match v with
  | PInt z => Ret (repeat (IZR z) (size shape))
  | PReal x => Ret (repeat x (size shape))
  | PArr sh l => if same_shape sh shape then Ret l
                 else match sh, l with [], [x] => Ret (repeat x (size shape)) | _, _ => left_out end
  | POther => Exc TypeErr
  end.

Section Frames.
  Variable ov : Z -> R.
  Variable subnormal : R -> R.

  Definition put (name : string) (i : nat) (v : value) (d : dataset) : res dataset :=
    match assoc name (d_vars d), d_frames d with
    | Some x, Some n =>
        if v_framed x then
          bind (flat v (v_shape x)) (fun l =>
          let l' := map (store ov subnormal (v_type x)) l in
          Ret (mkData (d_dims d) (Some (Nat.max n (S i)))
                 (update name (mkVar (v_type x) true (v_shape x)
                    (fun j => if Nat.eqb j i then Some l' else v_data x j)) (d_vars d)) (d_attrs d)))
        else left_out
    | _, _ => Exc KeyErr
    end.

  (** [__setattr__] and [__setitem__] of a frame, lines 114-122. Names that begin
      with an underscore are kept in the frame object only. *)
  Definition private (name : string) : res bool :=
    match name with
    | EmptyString => Exc IndexError
    | String a _ => Ret (Ascii.eqb a "_"%char)
    end.
  Definition set_frame (i : Z) (name : string) (v : value) (c : container) : container * res unit :=
    match private name with
    | Exc e => (c, Exc e)
    | Ret true => (c, Ret tt)
    | Ret false =>
        match create_if_missing name v c with
        | Exc e => (c, Exc e)
        | Ret c1 =>
            match (if i <? 0 then left_out
                   else bind (writable c1) (fun _ =>
                        bind (data c1) (fun d => put name (Z.to_nat i) v d))) with
            | Exc e => (c1, Exc e)
            | Ret d' => (with_data d' c1, Ret tt)
            end
        end
    end.

  (** ** [set_grid], lines 140-153. What was never written holds the fill value of
      netCDF, which netCDF4 shows as masked. A block that is empty or does not lie
      within the grid and variables whose frames are not two-dimensional are left out. *)
  Definition fill (t : dtype) : R :=
    match t with I4 => IZR (-2147483647) | _ => IZR (15 * 2 ^ 119) end.
  Definition overlay (NX NY x0 y0 nx ny : nat) (new old : list R) : list R :=
    map (fun p => let a := (p / NY)%nat in let b := (p mod NY)%nat in
           if ((x0 <=? a) && (a <? x0 + nx) && (y0 <=? b) && (b <? y0 + ny))%nat
           then nth ((a - x0) * ny + (b - y0)) new 0%R else nth p old 0%R)
        (seq 0 (NX * NY)).
  Definition put_grid (name : string) (i : nat) (nx ny x0 y0 : nat) (l : list R) (d : dataset) : res dataset :=
    match assoc name (d_vars d), d_frames d with
    | Some x, Some n =>
        match v_framed x, v_shape x with
        | true, [NX; NY] =>
            if ((x0 + nx <=? NX) && (y0 + ny <=? NY) && (0 <? nx) && (0 <? ny))%nat then
              let old := match (if (i <? n)%nat then v_data x i else None) with
                         | Some l0 => l0 | None => repeat (fill (v_type x)) (NX * NY) end in
              let new := overlay NX NY x0 y0 nx ny (map (store ov subnormal (v_type x)) l) old in
              Ret (mkData (d_dims d) (Some (Nat.max n (S i)))
                     (update name (mkVar (v_type x) true [NX; NY]
                        (fun j => if Nat.eqb j i then Some new else v_data x j)) (d_vars d)) (d_attrs d))
            else left_out
        | _, _ => left_out
        end
    | _, _ => Exc KeyErr
    end.
  Definition set_grid (i : Z) (name : string) (sh : list nat) (l : list R) (x0 y0 : nat) (c : container) : container * res unit :=
    match bind (shape_of c) (fun s => create_if_missing name (PArr s l) c) with
    | Exc e => (c, Exc e)
    | Ret c1 =>
        match sh with
        | [nx; ny] =>
            match (if i <? 0 then left_out
                   else bind (writable c1) (fun _ =>
                        bind (data c1) (fun d => put_grid name (Z.to_nat i) nx ny x0 y0 l d))) with
            | Exc e => (c1, Exc e)
            | Ret d' => (with_data d' c1, Ret tt)
            end
        | _ => (c1, Exc ValueErr)
        end
    end.
End Frames.

(** [__getattr__] and [__getitem__] of a frame, lines 101-112; None is a missing
    (masked) value. netCDF4 counts negative indices from the end. *)
Definition get_frame (i : Z) (name : string) (c : container) : res (option (list nat * list R)) :=
  bind (private name) (fun p =>
  if p then Exc KeyErr
  else bind (data c) (fun d =>
    match assoc name (d_vars d), d_frames d with
    | Some x, Some n =>
        if v_framed x then
          let j := if i <? 0 then i + Z.of_nat n else i in
          if j <? 0 then Exc IndexError
          else if (Z.to_nat j <? n)%nat
               then Ret (option_map (fun l => (v_shape x, l)) (v_data x (Z.to_nat j)))
               else Exc IndexError
        else left_out
    | Some x, None => left_out
    | None, _ => Exc KeyErr
    end)).

(** Reading [frame.name]: names defined by the class come first. *)
Definition class_names : list string :=
  ["index"; "traj"; "sync"; "get_index"; "get_traj"; "set_grid"]%string.

(** ** Whole-file data *)

(** [variables[name][:, :] = h] *)
Definition put_fixed (name : string) (sh : list nat) (l : list R) (d : dataset) : res dataset :=
  match assoc name (d_vars d) with
  | Some x => if v_framed x then left_out
              else if same_shape sh (v_shape x)
              then Ret (mkData (d_dims d) (d_frames d)
                     (update name (mkVar (v_type x) false (v_shape x) (fun _ => Some l)) (d_vars d)) (d_attrs d))
              else left_out
  | None => Exc KeyErr
  end.
Definition create_fixed (name : string) (dims : list string) (d : dataset) : res dataset :=
  match assoc name (d_vars d) with
  | Some _ => Ret d
  | None => create name F8 false dims d
  end.

(** [set_rigid_surface], lines 282-298. *)
Definition set_rigid (sh : list nat) (l : list R) (ndof : option nat) (c : container) : container * res unit :=
  match set_shape sh ndof c with
  | (c1, Exc e) => (c1, Exc e)
  | (c1, Ret _) =>
      match
        bind (shape2_of c1) (fun s2 =>
        match sh with
        | [hnx; hny] =>
            bind (data c1) (fun d =>
            bind (writable c1) (fun _ =>
            let d1 := if andb (Nat.eqb hnx (fst s2)) (Nat.eqb hny (snd s2)) then d
                      else match assoc "h"%string (d_vars d) with
                           | Some _ => d
                           | None => add_dim "rigid_ny"%string hny (add_dim "rigid_nx"%string hnx d)
                           end in
            bind (create_fixed "h"%string
                    (if andb (Nat.eqb hnx (fst s2)) (Nat.eqb hny (snd s2)) then ["nx"; "ny"] else ["rigid_nx"; "rigid_ny"])%string d1)
              (fun d2 => put_fixed "h"%string sh l d2)))
        | _ => Exc ValueErr
        end) with
      | Ret d' => (with_data d' c1, Ret tt)
      | Exc e => (c1, Exc e)
      end
  end.

(** [set_elastic_surface], lines 303-309. *)
Definition set_elastic (sh : list nat) (l : list R) (c : container) : container * res unit :=
  match bind (data c) (fun d => bind (writable c) (fun _ =>
        bind (create_fixed "elastic_surface"%string ["nx"; "ny"]%string d) (fun d1 =>
        put_fixed "elastic_surface"%string sh l d1))) with
  | Ret d' => (with_data d' c, Ret tt)
  | Exc e => (c, Exc e)
  end.

(** [__setattr__] and [__setitem__] of the container for names that do not begin
    with an underscore, lines 343-361. *)
Definition set_file (name : string) (v : value) (c : container) : container * res unit :=
  let attr := match bind (data c) (fun d => bind (writable c) (fun _ =>
                Ret (mkData (d_dims d) (d_frames d) (d_vars d) (update name v (d_attrs d))))) with
              | Ret d' => (with_data d' c, Ret tt)
              | Exc e => (c, Exc e)
              end in
  match v with
  | PArr (n :: sh) l =>
      match bind (data c) (fun d => bind (writable c) (fun _ =>
            bind (match assoc name (d_vars d) with
                  | Some _ => Ret d
                  | None => bind (shape_of c) (fun s =>
                      if andb (Nat.eqb (List.length (n :: sh)) (List.length s)) (all_equal (n :: sh) s)
                      then create name F8 false ["nx"; "ny"]%string d
                      else Exc RuntimeErr)
                  end) (fun d1 => put_fixed name (n :: sh) l d1))) with
      | Ret d' => (with_data d' c, Ret tt)
      | Exc e => (c, Exc e)
      end
  | _ => attr
  end.

(** [__getattr__] and [__getitem__] of the container, lines 334-341: variables
    (here those without frames) before attributes. *)
Inductive content := FileArray (a : option (list nat * list R)) | Trajectory (x : variable) | Attribute (v : value).
Definition get_file (name : string) (c : container) : res content :=
  bind (data c) (fun d =>
  match assoc name (d_vars d) with
  | Some x => if v_framed x then Ret (Trajectory x)
              else Ret (FileArray (option_map (fun l => (v_shape x, l)) (v_data x 0%nat)))
  | None => match assoc name (d_attrs d) with
            | Some v => Ret (Attribute v)
            | None => Exc AttributeErr
            end
  end).

(** ** Cursor, iteration, closing *)

(** [get_next_frame], lines 323-326. *)
Definition next_frame (c : container) : container * res Z :=
  match frame_index (c_cur c) c with
  | Exc e => (c, Exc e)
  | Ret i => (with_cur (c_cur c + 1) c, Ret i)
  end.

(** [__iter__], lines 376-378. *)
Definition iterate (c : container) : res (list Z) :=
  bind (length_of c) (fun n => Ret (map Z.of_nat (seq 0 n))).

(** [sync] and [close], lines 383-384 and 273-277. *)
Definition sync (c : container) (k : disk) : disk * res unit :=
  match c_data c with
  | Some d => (if c_writable c then update (c_fn c) d k else k, Ret tt)
  | None => (k, Exc AttributeErr)
  end.
Definition close (c : container) (k : disk) : disk * container :=
  match c_data c with
  | Some d => (if c_writable c then update (c_fn c) d k else k,
               mkCont (c_fn c) None (c_writable c) (c_double c) false (c_shape c) (c_shape2 c) (c_cur c))
  | None => (k, c)
  end.
