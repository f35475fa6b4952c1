(** * C52, C53: the NetCDF container *)
From Coq Require Import Reals ZArith Lia Lra List Arith Bool String Ascii.
From Verif Require Import Py Logger_Model NetCDF_Model NetCDF_Spec NetCDF_Proofs NetCDF_Session NetCDF_Round NetCDF_Cursor.
Import ListNotations.
Local Open Scope string_scope.
Local Open Scope list_scope.
Local Open Scope Z_scope.

(** ** C52 *)

(** A value written successfully to [container[i].name] is what is read from
    there after any further operations (exceptions included, other frames and
    other names, whole-file data, closing and opening again) that do not write
    the same name of the same frame. It has the type of the name if that was in
    use and otherwise the type that belongs to the value. *)
Theorem C52_read_back : forall ov sub i name v c c' k,
  private name = Ret false -> set_frame ov sub i name v c = (c', Ret tt) ->
  exists t shape,
    (type_in_use c name t
     \/ (unused c name /\ t = first_type (c_double c) v
         /\ match v with PInt _ | PReal _ | PArr [] _ => shape = [] | _ => True end))
    /\ (forall n sh l, v = PArr (n :: sh) l -> shape = n :: sh)
    /\ forall os, (forall v', ~ In (SetFrame i name v') os) ->
       (forall sh l x0 y0, ~ In (SetGrid i name sh l x0 y0) os) ->
       is_open (fst (session ov sub os (c', k))) ->
       get_frame i name (fst (session ov sub os (c', k))) = Ret (stored ov sub t shape v).
Proof. exact read_back. Qed.
Print Assumptions C52_read_back.

(** Double precision is exact, 32-bit integers are exact in their range; single
    precision is exact for 24 binary digits and otherwise accurate to 2^-24. *)
Theorem C52_precision : forall ov sub,
  (forall x, store ov sub F8 x = x)
  /\ (forall z, - 2 ^ 31 <= z < 2 ^ 31 -> store ov sub I4 (IZR z) = IZR z)
  /\ (forall m k, - 2 ^ 24 < m < 2 ^ 24 ->
        (powerRZ 2 (-126) <= Rabs (IZR m * powerRZ 2 k) < powerRZ 2 127)%R ->
        store ov sub F4 (IZR m * powerRZ 2 k) = (IZR m * powerRZ 2 k)%R)
  /\ (forall x, (powerRZ 2 (-126) <= Rabs x < powerRZ 2 127)%R ->
        (Rabs (store ov sub F4 x - x) <= / 2 ^ 24 * Rabs x)%R)
  /\ store ov sub F4 0 = 0%R.
Proof.
  intros ov sub. split; [reflexivity|]. split; [intros; apply i4_exact; assumption|].
  split; [intros; apply f4_exact; assumption|]. split; [intros; apply f4_error; assumption|].
  cbn. unfold to_f4. destruct (Req_EM_T 0 0); [reflexivity|contradiction].
Qed.
Print Assumptions C52_precision.

(** Writing succeeds: a new file whose shape was set takes, at any later moment
    before it is closed, numbers and maps of its shape under a new name, and
    values of the right shape under a name in use. *)
Theorem C52_write_succeeds : forall ov sub fn db k nx ny os,
  (forall o, In o os -> match o with Close => False | Reopen rw _ _ => rw = true | _ => True end) ->
  exists c0 k' c, open_container fn 0 db Write k = (k', Ret c0) /\ set_shape [nx; ny] None c0 = (c, Ret tt)
  /\ forall i name v, private name = Ret false -> 0 <= i ->
     let now := fst (session ov sub os (c, k')) in
     (unused now name /\ fits nx ny v)
     \/ (exists shape, shape_in_use now name shape
         /\ match v with PInt _ | PReal _ | PArr [] [_] => True | PArr sh _ => sh = shape | POther => False end) ->
     snd (set_frame ov sub i name v now) = Ret tt.
Proof.
  intros ov sub fn db k nx ny os S. destruct (new_file fn db k nx ny) as (c0 & k' & c & A & B & T & _).
  exists c0, k', c. split; [exact A|]. split; [exact B|]. intros i name v PR I now H.
  assert (T2 : two_dimensional now nx ny) by (apply two_session; [exact S|exact T]).
  destruct H as [[U F]|(shape & U & F)].
  - destruct (write_new ov sub i name v now nx ny T2 PR I U F) as (c2 & E & _). rewrite E. reflexivity.
  - destruct (write_again ov sub i name v now nx ny shape T2 PR I U F) as (c2 & E & _). rewrite E. reflexivity.
Qed.
Print Assumptions C52_write_succeeds.

(** Surfaces and whole-file arrays are read back exactly; frames do not touch
    them, whatever their names. *)
Theorem C52_whole_file : forall ov sub c c' k os name sh l,
  ((name = "h" /\ exists ndof, set_rigid sh l ndof c = (c', Ret tt))
   \/ (name = "elastic_surface" /\ set_elastic sh l c = (c', Ret tt))
   \/ (sh <> [] /\ set_file name (PArr sh l) c = (c', Ret tt))) ->
  (forall v, ~ In (SetFile name v) os) ->
  (name = "h" -> forall s a n, ~ In (SetRigid s a n) os) ->
  (name = "elastic_surface" -> forall s a, ~ In (SetElastic s a) os) ->
  is_open (fst (session ov sub os (c', k))) ->
  get_file name (fst (session ov sub os (c', k))) = Ret (FileArray (Some (sh, l))).
Proof.
  intros ov sub c c' k os name sh l H N1 N2 N3 OP.
  assert (W : c_writable c' = true /\ exists d, c_data c' = Some d /\ fixed name sh l d).
  { destruct H as [[-> [ndof H]]|[[-> H]|[NE H]]].
    - eapply set_rigid_ret; exact H.
    - eapply set_elastic_ret; exact H.
    - destruct sh as [|n sh]; [contradiction|]. eapply set_file_ret; exact H. }
  destruct W as (WR & d & D & F). eapply fixed_session; [exact WR|exact D|exact F| |exact OP].
  intros o IN W. destruct o; cbn in W; try contradiction.
  - destruct W as [W _]. discriminate.
  - destruct W as [W _]. discriminate.
  - destruct W as [_ W]. exact (N2 W _ _ _ IN).
  - destruct W as [_ W]. exact (N3 W _ _ IN).
  - destruct v as [|?|[|? ?] ?|]; try contradiction. destruct W as [_ W]. subst name0. exact (N1 _ IN).
Qed.
Print Assumptions C52_whole_file.

(** Other values set on the container are attributes of the file; they are read
    back, unless a variable has the same name. *)
Theorem C52_attributes : forall ov sub name v c c' k os,
  (forall n sh l, v <> PArr (n :: sh) l) ->
  set_file name v c = (c', Ret tt) -> (forall v', ~ In (SetFile name v') os) ->
  is_open (fst (session ov sub os (c', k))) -> unused (fst (session ov sub os (c', k))) name ->
  get_file name (fst (session ov sub os (c', k))) = Ret (Attribute v).
Proof. exact attr_session. Qed.
Print Assumptions C52_attributes.

(** A file of 2 x 2 points for the examples. *)
Definition file22 (double : bool) : container :=
  match open_container "f" 0 double Write [] with
  | (_, Ret c) => fst (set_shape [2; 2]%nat None c)
  | (_, Exc _) => mkCont "" None false false false None None 0
  end.

(** The hypotheses hold in a session that writes other frames and names, closes
    the file, and opens it again. *)
Example C52_nonvacuous : forall ov sub,
  let os := [SetFrame 1 "f" (PArr [2; 2]%nat [1; 2; 3; 4]%R); SetFrame 0 "x" (PInt 7); SetFile "note" (PInt 3);
             SetFrame 0 "y" POther; Close; Reopen false (-1) false] in
  exists c', set_frame ov sub 0 "f" (PArr [2; 2]%nat [5; 6; 7; 1/3]%R) (file22 true) = (c', Ret tt)
    /\ is_open (fst (session ov sub os (c', [])))
    /\ get_frame 0 "f" (fst (session ov sub os (c', []))) = Ret (Some ([2; 2]%nat, [5; 6; 7; 1/3]%R))
    /\ get_file "note" (fst (session ov sub os (c', []))) = Ret (Attribute (PInt 3)).
Proof.
  intros ov sub os. eexists. split; [reflexivity|]. split; [discriminate|]. split; reflexivity.
Qed.
Example C52_whole_file_nonvacuous : forall ov sub,
  let os := [SetFrame 0 "h" (PReal 1); SetFrame 0 "g" (PReal 1); Reopen true 0 false] in
  exists c', set_rigid [2; 2]%nat [1; 2; 3; 4]%R None (file22 true) = (c', Ret tt)
    /\ get_file "h" (fst (session ov sub os (c', []))) = Ret (FileArray (Some ([2; 2]%nat, [1; 2; 3; 4]%R))).
Proof. intros ov sub os. eexists. split; reflexivity. Qed.

(** The stored value is not always the written one. The type of a name is that of
    its first value: after an int, reals lose their fraction. *)
Theorem C52_int_first_refuted : forall ov sub,
  exists c1 c2, set_frame ov sub 0 "p" (PInt 0) (file22 true) = (c1, Ret tt)
    /\ set_frame ov sub 1 "p" (PReal (5/2)) c1 = (c2, Ret tt)
    /\ get_frame 1 "p" c2 = Ret (Some ([], [2%R])).
Proof.
  intros ov sub. eexists _, _. split; [reflexivity|]. split; [reflexivity|].
  cbn -[to_i4]. do 5 f_equal. unfold to_i4, trunc. destruct (Rlt_dec (5/2) 0); [lra|].
  rewrite (int_part_unique (5/2) 2) by lra. reflexivity.
Qed.
Print Assumptions C52_int_first_refuted.

(** By default maps are stored in single precision, so one tenth is not read back. *)
Theorem C52_single_precision_refuted : forall ov sub,
  exists c1 x, set_frame ov sub 0 "u" (PArr [2; 2]%nat [0; 0; 0; 1/10]%R) (file22 false) = (c1, Ret tt)
    /\ get_frame 0 "u" c1 = Ret (Some ([2; 2]%nat, [0; 0; 0; x]%R)) /\ x <> (1/10)%R.
Proof.
  intros ov sub. eexists _, (to_f4 sub (1/10)). split; [reflexivity|]. split.
  - cbn -[to_f4]. assert (Z : to_f4 sub 0 = 0%R) by (unfold to_f4; destruct (Req_EM_T 0 0); [reflexivity|contradiction]).
    rewrite Z. reflexivity.
  - unfold to_f4. destruct (Req_EM_T (1/10) 0); [lra|]. cbv zeta. rewrite (Rabs_right (1/10)) by lra.
    destruct (exponent2_between (1/10) (-4) (-3)) as [A B].
    { change (powerRZ 2 (-4)) with (/ 2 ^ 4)%R. change (powerRZ 2 (-3)) with (/ 2 ^ 3)%R.
      replace (2 ^ 4)%R with 16%R by ring. replace (2 ^ 3)%R with 8%R by ring. lra. }
    set (e := Int_part (ln (1 / 10) / ln 2)) in *. replace e with (-4) by lia.
    change (andb (-126 <=? -4) (-4 <? 127)) with true. cbv iota.
    destruct (Rlt_dec (1/10) 0); [lra|]. set (m := round_even _). intro E.
    assert (P : (powerRZ 2 (-4 - 23) * powerRZ 2 27 = 1)%R) by (rewrite pow2_add; reflexivity).
    assert (Q : powerRZ 2 27 = IZR (2 ^ 27)) by (change 27 with (Z.of_nat 27) at 1; rewrite pow2_nat; reflexivity).
    assert (R : (IZR m * 10 = IZR (2 ^ 27))%R).
    { rewrite <- Q. transitivity (10 * (IZR m * powerRZ 2 (-4 - 23)) * powerRZ 2 27)%R.
      - rewrite (Rmult_assoc 10), (Rmult_assoc (IZR m)), P. ring.
      - rewrite E. field. }
    rewrite <- mult_IZR in R. apply eq_IZR in R. change (2 ^ 27) with 134217728 in R. lia.
Qed.
Print Assumptions C52_single_precision_refuted.

(** Names that begin with an underscore are accepted and not stored; a name that
    is in use for a map of the file cannot be used in frames. *)
Theorem C52_underscore_refuted : forall ov sub i name v c,
  set_frame ov sub i (String "_" name) v c = (c, Ret tt) /\ get_frame i (String "_" name) c = Exc KeyErr.
Proof. intros. split; reflexivity. Qed.
Print Assumptions C52_underscore_refuted.

(** An attribute of the file is hidden as soon as frames use its name. *)
Theorem C52_hidden_attribute_refuted : forall ov sub,
  exists c1 c2, set_file "pressure" (PReal 1) (file22 true) = (c1, Ret tt)
    /\ get_file "pressure" c1 = Ret (Attribute (PReal 1))
    /\ set_frame ov sub 0 "pressure" (PReal 2) c1 = (c2, Ret tt)
    /\ forall v, get_file "pressure" c2 <> Ret (Attribute v).
Proof. intros ov sub. eexists _, _. split; [reflexivity|]. split; [reflexivity|]. split; [reflexivity|]. intro v. discriminate. Qed.
Print Assumptions C52_hidden_attribute_refuted.

(** ** C53 *)

(** [container[-j]] is [container[len - j]]. *)
Theorem C53_negative_index : forall c n j, length_of c = Ret n -> (1 <= j <= n)%nat ->
  frame_index (- Z.of_nat j) c = Ret (Z.of_nat (n - j)) /\ frame_index (Z.of_nat (n - j)) c = Ret (Z.of_nat (n - j)).
Proof.
  intros c n j L J. unfold frame_index. rewrite L. cbn [bind]. split.
  - destruct (Z.ltb_spec (- Z.of_nat j) 0); [|lia]. f_equal. lia.
  - destruct (Z.ltb_spec (Z.of_nat (n - j)) 0); [lia|reflexivity].
Qed.
Print Assumptions C53_negative_index.

(** Iteration visits every frame once, in order. *)
Theorem C53_iteration : forall c n, length_of c = Ret n ->
  exists l, iterate c = Ret l /\ List.length l = n /\ forall j, (j < n)%nat -> nth_error l j = Some (Z.of_nat j).
Proof.
  intros c n L. unfold iterate. rewrite L. cbn [bind]. eexists. split; [reflexivity|].
  split; [rewrite map_length, seq_length; reflexivity|]. intros j J.
  rewrite nth_error_map. rewrite (nth_error_nth' _ 0%nat) by (rewrite seq_length; exact J). rewrite seq_nth by exact J. reflexivity.
Qed.
Print Assumptions C53_iteration.

(** [get_next_frame] called [k] times from cursor [c] gives the frames [c], ...,
    [c + k - 1], changes nothing but the cursor, and does not lengthen the file;
    [set_cursor] starts over anywhere. *)
Theorem C53_next_frames : forall k z c, 0 <= z ->
  let (c', r) := next_frames k (with_cur z c) in
  List.length r = k /\ (forall j, (j < k)%nat -> nth_error r j = Some (Ret (z + Z.of_nat j)))
  /\ c_cur c' = z + Z.of_nat k /\ c_data c' = c_data c /\ length_of c' = length_of c.
Proof.
  intros k z c Z. rewrite next_frames_spec by exact Z. cbn [with_cur c_cur].
  split; [rewrite map_length, seq_length; reflexivity|]. split; [|auto].
  intros j J. rewrite nth_error_map. rewrite (nth_error_nth' _ 0%nat) by (rewrite seq_length; exact J).
  rewrite seq_nth by exact J. reflexivity.
Qed.
Print Assumptions C53_next_frames.

(** The container length is one more than the largest frame written: after any
    session it is the largest of the length at the start and of [i + 1] for the
    successful writes to frames [i]; a new file has length 0. *)
Theorem C53_length : forall ov sub fn fr db m k k' c n os,
  open_container fn fr db m k = (k', Ret c) -> length_of c = Ret n ->
  is_open (fst (session ov sub os (c, k'))) ->
  length_of (fst (session ov sub os (c, k'))) = Ret (fold_right Nat.max n (map S (frames_written ov sub os (c, k')))).
Proof.
  intros ov sub fn fr db m k k' c n os O L OP. apply frames_length; [|exact OP].
  apply frames_session. eapply open_frames; eassumption.
Qed.
Print Assumptions C53_length.
Theorem C53_length_new : forall ov sub fn db k nx ny os, exists c0 k' c,
  open_container fn 0 db Write k = (k', Ret c0) /\ set_shape [nx; ny] None c0 = (c, Ret tt)
  /\ length_of c = Ret 0%nat
  /\ (is_open (fst (session ov sub os (c, k'))) ->
      length_of (fst (session ov sub os (c, k'))) = Ret (fold_right Nat.max 0%nat (map S (frames_written ov sub os (c, k'))))).
Proof.
  intros ov sub fn db k nx ny os. destruct (new_file fn db k nx ny) as (c0 & k' & c & A & B & _ & L & _ & F & _).
  exists c0, k', c. split; [exact A|]. split; [exact B|]. split; [exact L|]. intro OP.
  apply frames_length; [|exact OP]. apply frames_session. exact F.
Qed.
Print Assumptions C53_length_new.

(** With the cursor at the end, [get_next_frame] appends: the values written one
    after the other are the frames [n], [n + 1], ..., and the file has that many
    frames more. New files start like this. *)
Theorem C53_append : forall ov sub fn fr db m k k' c n nx ny name xs,
  open_container fn fr db m k = (k', Ret c) -> length_of c = Ret n -> two_dimensional c nx ny ->
  private name = Ret false -> (unused c name \/ (type_in_use c name F8 /\ shape_in_use c name [])) ->
  exists c', append_all ov sub name xs (with_cur (Z.of_nat n) c) = (c', Ret tt)
    /\ length_of c' = Ret (n + List.length xs)%nat
    /\ forall j x, nth_error xs j = Some x -> get_frame (Z.of_nat (n + j)) name c' = Ret (Some ([], [x])).
Proof.
  intros ov sub fn fr db m k k' c n nx ny name xs O L T PR U.
  assert (F : frames_of (with_cur (Z.of_nat n) c, k') n) by (exact (open_frames fn fr db m k k' c n O L)).
  destruct (append_spec ov sub name xs (with_cur (Z.of_nat n) c) nx ny n k' T PR U eq_refl F)
    as (c' & E & T' & _ & F' & _ & R).
  exists c'. split; [exact E|]. split; [|exact R].
  apply (frames_length (c', k')); [exact F'|]. destruct T' as (_ & _ & _ & _ & d & ? & D & _). cbn. unfold is_open. congruence.
Qed.
Print Assumptions C53_append.
Theorem C53_append_new : forall ov sub fn db k nx ny name xs, private name = Ret false ->
  exists c0 k' c c', open_container fn 0 db Write k = (k', Ret c0) /\ set_shape [nx; ny] None c0 = (c, Ret tt)
    /\ append_all ov sub name xs c = (c', Ret tt) /\ length_of c' = Ret (List.length xs)
    /\ forall j x, nth_error xs j = Some x -> get_frame (Z.of_nat j) name c' = Ret (Some ([], [x])).
Proof.
  intros ov sub fn db k nx ny name xs PR. destruct (new_file fn db k nx ny) as (c0 & k' & c & A & B & T & L & CU & F & U & _).
  destruct (append_spec ov sub name xs c nx ny 0 k' T PR (or_introl (U name)) CU F) as (c' & E & T' & _ & F' & _ & R).
  exists c0, k', c, c'. split; [exact A|]. split; [exact B|]. split; [exact E|]. split; [|exact R].
  apply (frames_length (c', k')); [exact F'|]. destruct T' as (_ & _ & _ & _ & d & ? & D & _). cbn. unfold is_open. congruence.
Qed.
Print Assumptions C53_append_new.

(** Opening with a negative frame starts that far from the end. *)
Theorem C53_open_from_end : forall fn db m k k' c n j, m <> Write -> (1 <= j <= n)%nat ->
  open_container fn (- Z.of_nat j) db m k = (k', Ret c) -> length_of c = Ret n ->
  snd (next_frame c) = Ret (Z.of_nat (n - j)).
Proof.
  intros fn db m k k' c n j M J O L. unfold open_container in O.
  assert (X : exists c0, set_start (- Z.of_nat j) c0 = Ret c).
  { destruct m; [|contradiction|]; (destruct (assoc fn k) as [d|]; [|discriminate]);
      (destruct (assoc "nx" (d_dims d)); [|discriminate]); (destruct (assoc "ny" (d_dims d)); [|discriminate]);
      injection O as _ O; eexists; exact O. }
  destruct X as (c0 & X). pose proof (set_start_data _ _ _ X) as (S1 & _).
  assert (L0 : length_of c0 = Ret n) by (unfold length_of, data in *; rewrite <- S1; exact L).
  unfold set_start in X. rewrite L0 in X. destruct (Z.ltb_spec (- Z.of_nat j) 0); [|lia]. cbn [bind] in X. injection X as <-.
  unfold next_frame, frame_index. cbn [with_cur c_cur]. destruct (Z.ltb_spec (Z.of_nat n + - Z.of_nat j) 0); [lia|].
  cbn [snd]. f_equal. lia.
Qed.
Print Assumptions C53_open_from_end.

Example C53_nonvacuous : forall ov sub,
  exists c1 k1 c2, append_all ov sub "x" [1; 2; 3]%R (file22 true) = (c1, Ret tt)
    /\ length_of c1 = Ret 3%nat /\ iterate c1 = Ret [0; 1; 2]
    /\ frame_index (-1) c1 = Ret 2
    /\ open_container "f" (-2) false Read (fst (close c1 [])) = (k1, Ret c2) /\ length_of c2 = Ret 3%nat
    /\ snd (next_frame c2) = Ret 1 /\ get_frame 1 "x" c2 = Ret (Some ([], [2%R])).
Proof.
  intros ov sub. eexists _, _, _. split; [reflexivity|]. split; [reflexivity|]. split; [reflexivity|].
  split; [reflexivity|]. split; [reflexivity|]. split; [reflexivity|]. split; reflexivity.
Qed.
Example C53_append_nonvacuous : forall ov sub, exists c1 k1 c2,
  append_all ov sub "x" [1; 2]%R (file22 true) = (c1, Ret tt)
  /\ open_container "f" 0 false Append (fst (close c1 [])) = (k1, Ret c2) /\ length_of c2 = Ret 2%nat
  /\ two_dimensional c2 2 2 /\ type_in_use c2 "x" F8 /\ shape_in_use c2 "x" [].
Proof.
  intros ov sub. eexists _, _, _. split; [reflexivity|]. split; [reflexivity|]. split; [reflexivity|]. split.
  - repeat (split; [reflexivity|]). eexists _, _. repeat (split; [reflexivity|]). reflexivity.
  - split; eexists _, _; repeat (split; [reflexivity|]); reflexivity.
Qed.

(** [get_next_frame] does not append by itself: a file opened for appending has
    its cursor at frame 0 and the first frames are overwritten. *)
Theorem C53_append_mode_refuted : forall ov sub, exists c1 k1 c2 c3,
  append_all ov sub "x" [1; 2]%R (file22 true) = (c1, Ret tt)
  /\ open_container "f" 0 false Append (fst (close c1 [])) = (k1, Ret c2)
  /\ append_all ov sub "x" [3]%R c2 = (c3, Ret tt)
  /\ length_of c3 = Ret 2%nat /\ get_frame 0 "x" c3 = Ret (Some ([], [3%R])).
Proof.
  intros ov sub. eexists _, _, _, _. split; [reflexivity|]. split; [reflexivity|]. split; [reflexivity|]. split; reflexivity.
Qed.
Print Assumptions C53_append_mode_refuted.
