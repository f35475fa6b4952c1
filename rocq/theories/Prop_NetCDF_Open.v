(** * C87: selecting frames by slices and by file names, writing parts of a grid *)
From Coq Require Import Reals ZArith Lia Lra List Arith Bool String Ascii.
From Verif Require Import Py Logger_Model Logger_Read NetCDF_Model NetCDF_Spec NetCDF_Proofs NetCDF_Session
  NetCDF_Cursor NetCDF_Open_Model NetCDF_Open_Spec NetCDF_Open_Proofs NetCDF_Grid Prop_NetCDF.
Import ListNotations.
Local Open Scope string_scope.
Local Open Scope list_scope.
Local Open Scope Z_scope.

(** A slice gives the frames that Python's rules for slices select, in their
    order; a step of zero is refused. *)
Theorem C87_slice : forall c n a b s, length_of c = Ret n ->
  (0 < or_else s (fun z => z) 1 -> get_slice a b s c = Ret (upwards n a b (or_else s (fun z => z) 1)))
  /\ (forall z, s = Some z -> z < 0 -> get_slice a b s c = Ret (downwards n a b z))
  /\ (s = Some 0 -> get_slice a b s c = Exc ValueErr).
Proof.
  intros c n a b s L. split; [|split].
  - apply slice_up; exact L.
  - intros z -> N. apply slice_down; assumption.
  - intros ->. unfold get_slice. rewrite L. reflexivity.
Qed.
Print Assumptions C87_slice.

(** Every frame of a slice exists. *)
Theorem C87_slice_exists : forall c n a b s l i, length_of c = Ret n -> get_slice a b s c = Ret l -> In i l ->
  0 <= i < Z.of_nat n.
Proof.
  intros c n a b s l i L G I. destruct (C87_slice c n a b s L) as (U & D & Z0).
  destruct (Z_lt_dec 0 (or_else s (fun z => z) 1)) as [P|P].
  - rewrite (U P) in G. injection G as <-. unfold upwards in I. apply filter_In in I. apply in_frames, I.
  - destruct s as [z|]; [|cbn in P; lia]. cbn [or_else] in P. destruct (Z.eq_dec z 0) as [->|N].
    + rewrite (Z0 eq_refl) in G. discriminate.
    + rewrite (D z eq_refl ltac:(lia)) in G. injection G as <-. unfold downwards in I. apply in_rev, filter_In in I.
      apply in_frames, I.
Qed.
Print Assumptions C87_slice_exists.

(** [c[:m]] and [c[m:]] are together all frames, whatever the integer [m];
    [c[::-1]] has them in reverse; [c[a:b]] has the frames from [a] to [b - 1];
    [c[-j:]] the last [j]. *)
Lemma filter_seq : forall p q n, (p <= q <= n)%nat ->
  filter (fun i => (Z.of_nat p <=? i) && (i <? Z.of_nat q))%bool (frames n) = map Z.of_nat (seq p (q - p)).
Proof.
  intros p q n B. apply (sorted_ext Z.lt); [lia|apply sorted_filter, frames_sorted|apply sorted_map_seq; intros; lia|].
  intro i. rewrite filter_In, in_frames, andb_true_iff, Z.leb_le, Z.ltb_lt, in_map_iff. split.
  - intros [R [H1 H2]]. exists (Z.to_nat i). split; [lia|]. apply in_seq. lia.
  - intros (j & <- & J). apply in_seq in J. lia.
Qed.
Lemma upwards_one : forall n a b p q, (p <= q <= n)%nat -> Z.max 0 (or_else a (from_end n) 0) = Z.of_nat p \/ (q <= p)%nat /\ Z.of_nat q <= or_else a (from_end n) 0 ->
  or_else b (from_end n) (Z.of_nat n) = Z.of_nat q \/ (q = n /\ Z.of_nat n <= or_else b (from_end n) (Z.of_nat n)) ->
  upwards n a b 1 = map Z.of_nat (seq p (q - p)).
Proof.
  intros n a b p q B HA HB. rewrite <- (filter_seq p q n B). unfold upwards. cbv zeta.
  set (fa := or_else a (from_end n) 0) in *. set (fb := or_else b (from_end n) (Z.of_nat n)) in *. clearbody fa fb.
  apply filter_ext_in. intros i I. apply in_frames in I. rewrite Z.mod_1_r, Z.eqb_refl, andb_true_r.
  apply eq_true_iff_eq. rewrite !andb_true_iff, !Z.leb_le, !Z.ltb_lt. lia.
Qed.
Theorem C87_slice_laws : forall c n, length_of c = Ret n ->
  (forall m, exists l1 l2, get_slice None (Some m) None c = Ret l1 /\ get_slice (Some m) None None c = Ret l2 /\ l1 ++ l2 = frames n)
  /\ get_slice None None (Some (-1)) c = Ret (rev (frames n))
  /\ (forall a b, (a <= b <= n)%nat -> get_slice (Some (Z.of_nat a)) (Some (Z.of_nat b)) None c = Ret (map Z.of_nat (seq a (b - a))))
  /\ (forall j, (1 <= j <= n)%nat -> get_slice (Some (- Z.of_nat j)) None None c = Ret (map Z.of_nat (seq (n - j) j))).
Proof.
  intros c n L. split; [|split; [|split]].
  - intro m. set (q := Z.to_nat (Z.min (Z.of_nat n) (Z.max 0 (from_end n m)))).
    exists (map Z.of_nat (seq 0 q)), (map Z.of_nat (seq q (n - q))).
    assert (Q : (q <= n)%nat) by lia. split; [|split].
    + rewrite (slice_up c n None (Some m) None L) by (cbn; lia). f_equal. cbn [or_else].
      unfold upwards. cbv zeta. cbn [or_else]. replace (map Z.of_nat (seq 0 q)) with (map Z.of_nat (seq 0 (q - 0))) by (rewrite Nat.sub_0_r; reflexivity). rewrite <- (filter_seq 0 q n) by lia.
      apply filter_ext_in. intros i I. apply in_frames in I. rewrite Z.mod_1_r, Z.eqb_refl, andb_true_r.
      apply eq_true_iff_eq. rewrite !andb_true_iff, !Z.leb_le, !Z.ltb_lt. lia.
    + rewrite (slice_up c n (Some m) None None L) by (cbn; lia). f_equal. cbn [or_else].
      unfold upwards. cbv zeta. cbn [or_else]. rewrite <- (filter_seq q n n) by lia.
      apply filter_ext_in. intros i I. apply in_frames in I. rewrite Z.mod_1_r, Z.eqb_refl, andb_true_r.
      apply eq_true_iff_eq. rewrite !andb_true_iff, !Z.leb_le, !Z.ltb_lt. lia.
    + rewrite <- map_app. unfold frames. f_equal. replace (seq 0 q ++ seq q (n - q)) with (seq 0 (q + (n - q))) by (rewrite seq_app; reflexivity). f_equal. lia.
  - rewrite (slice_down c n None None (-1) L) by lia. f_equal. unfold downwards. cbv zeta. cbn [or_else]. f_equal.
    transitivity (filter (fun _ => true) (frames n)); [|induction (frames n) as [|x l IH]; [reflexivity|cbn; f_equal; exact IH]].
    apply filter_ext_in. intros i I. apply in_frames in I.
    assert (M1 : forall x, x mod (-1) = 0) by (intro x; apply Z.mod_divide; [lia|]; exists (- x); lia).
    rewrite M1. rewrite !andb_true_iff, Z.leb_le, Z.ltb_lt, Z.eqb_eq. lia.
  - intros a b B. rewrite (slice_up c n (Some (Z.of_nat a)) (Some (Z.of_nat b)) None L) by (cbn; lia). f_equal. cbn [or_else].
    apply upwards_one; [lia| |]; left; cbn [or_else]; unfold from_end; destruct (Z.ltb_spec (Z.of_nat a) 0), (Z.ltb_spec (Z.of_nat b) 0); lia.
  - intros j J. rewrite (slice_up c n (Some (- Z.of_nat j)) None None L) by (cbn; lia). f_equal. cbn [or_else].
    replace (seq (n - j) j) with (seq (n - j) (n - (n - j))) by (f_equal; lia). apply upwards_one; [lia| |].
    + left. cbn [or_else]. unfold from_end. destruct (Z.ltb_spec (- Z.of_nat j) 0); lia.
    + left. reflexivity.
Qed.
Print Assumptions C87_slice_laws.

(** [open('name@z')] and [open('name', frame=z)] give frame [z] of the file,
    counted from the end if [z] is negative; [frame] is ignored if there is a
    number in the name. *)
Theorem C87_open_frame : forall name z m fr db k k' c n, name <> "" -> ~ has_at name ->
  open_container name 0 db m k = (k', Ret c) -> length_of c = Ret n -> - Z.of_nat n <= z < Z.of_nat n ->
  open_name (at_frame name z) m fr db k = (k', Ret (OFrame c (z mod Z.of_nat n)))
  /\ open_name name m (Some z) db k = (k', Ret (OFrame c (z mod Z.of_nat n))).
Proof.
  intros name z m fr db k k' c n NE NA O L B.
  rewrite open_at by assumption. rewrite open_frame_kw by (left; assumption). rewrite O.
  rewrite (select_frame c n z k' L B). auto.
Qed.
Print Assumptions C87_open_frame.

(** What was appended to a new file is found again by opening it as [file@z]. *)
Theorem C87_round_trip : forall ov sub file db db' fr k nx ny name xs, file <> "" -> ~ has_at file -> private name = Ret false ->
  exists c0 k1 c c', open_container file 0 db Write k = (k1, Ret c0) /\ set_shape [nx; ny] None c0 = (c, Ret tt)
    /\ append_all ov sub name xs c = (c', Ret tt)
    /\ forall z x, nth_error xs (Z.to_nat (z mod Z.of_nat (List.length xs))) = Some x ->
         - Z.of_nat (List.length xs) <= z < Z.of_nat (List.length xs) ->
         exists o, snd (open_name (at_frame file z) Read fr db' (fst (close c' k1))) = Ret o
           /\ read_opened o name = Ret (Some ([], [x])).
Proof.
  intros ov sub file db db' fr k nx ny name xs NE NA PR.
  destruct (new_file file db k nx ny) as (c0 & k1 & c & A & B & T & L & CU & F & U & DB).
  destruct (append_spec ov sub name xs c nx ny 0 k1 T PR (or_introl (U name)) CU F) as (c' & E & T' & G & F' & CU' & R).
  exists c0, k1, c, c'. split; [exact A|]. split; [exact B|]. split; [exact E|]. intros z x X BZ.
  pose proof T' as (T1 & T2 & T3 & T4 & d & n & D & FR & DX & DY).
  assert (LEN : n = List.length xs).
  { destruct F' as [F1 _]. cbn [fst] in F1. specialize (F1 d D). cbn in F1. congruence. }
  assert (FN : c_fn c' = file).
  { destruct G as (G1 & _). rewrite G1. cbn in A. injection A as _ <-. cbn in B. injection B as <-. reflexivity. }
  assert (CL : fst (close c' k1) = update file d k1) by (unfold close; rewrite D, T1, FN; reflexivity).
  rewrite CL. assert (O : exists c2, open_container file 0 db' Read (update file d k1) = (update file d k1, Ret c2) /\ c_data c2 = Some d).
  { unfold open_container. rewrite assoc_update_same, DX, DY. eexists. split; reflexivity. }
  destruct O as (c2 & O & D2).
  assert (L2 : length_of c2 = Ret (List.length xs)) by (unfold length_of, data; rewrite D2; cbn [bind]; rewrite FR, LEN; reflexivity).
  exists (OFrame c2 (z mod Z.of_nat (List.length xs))).
  rewrite (proj1 (C87_open_frame file z Read fr db' _ _ c2 _ NE NA O L2 BZ)). split; [reflexivity|].
  cbn [read_opened]. specialize (R (Z.to_nat (z mod Z.of_nat (List.length xs))) x X). cbn [Nat.add] in R.
  assert (PZ : 0 <= z mod Z.of_nat (List.length xs)) by (apply Z.mod_pos_bound; lia).
  rewrite Z2Nat.id in R by exact PZ. rewrite <- R. unfold get_frame, data. rewrite D2, D. reflexivity.
Qed.
Print Assumptions C87_round_trip.

(** A number that is too large is noticed only when the frame is read. *)
Theorem C87_past_end : forall name z m fr db k k' c n var sh, name <> "" -> ~ has_at name ->
  open_container name 0 db m k = (k', Ret c) -> length_of c = Ret n -> Z.of_nat n <= z ->
  private var = Ret false -> shape_in_use c var sh ->
  exists o, open_name (at_frame name z) m fr db k = (k', Ret o) /\ read_opened o var = Exc IndexError.
Proof.
  intros name z m fr db k k' c n var sh NE NA O L B PR SU.
  destruct (past_end c n z var sh L B PR SU) as [I G]. exists (OFrame c z).
  rewrite open_at by assumption. rewrite O. unfold select. cbn [fst snd bind]. rewrite I. split; [reflexivity|exact G].
Qed.
Print Assumptions C87_past_end.

(** Behind the first [@] there must be an integer: any other character there
    raises ValueError, and no file is touched. *)
Theorem C87_open_text : forall name q ch m fr db k, name <> "" -> ~ has_at name ->
  In ch (list_ascii_of_string q) -> int_char ch = false ->
  open_name (String.append name (String "@" q)) m fr db k = (k, Exc ValueErr).
Proof.
  intros name q ch m fr db k NE NA I B. unfold open_name. rewrite cut_app by exact NA.
  destruct name as [|a s]; [contradiction|]. rewrite (parse_bad _ ch I B). reflexivity.
Qed.
Print Assumptions C87_open_text.

(** Names without [@], and names that begin with it, are names of files; the
    container starts at frame 0. A container is handed back as it is. *)
Theorem C87_open_container : forall name m db k, (~ has_at name \/ exists s, name = String "@" s) ->
  fst (open_name name m None db k) = fst (open_container name 0 db m k)
  /\ (forall c, snd (open_container name 0 db m k) = Ret c -> snd (open_name name m None db k) = Ret (OContainer c) /\ c_cur c = 0)
  /\ (forall e, snd (open_container name 0 db m k) = Exc e -> snd (open_name name m None db k) = Exc e).
Proof.
  intros name m db k H. rewrite (open_plain name m db k H). cbn [fst snd].
  split; [reflexivity|]. split; [|intros e ->; reflexivity].
  intros c E. rewrite E. split; [reflexivity|]. unfold open_container in E. destruct m; cbn [snd] in E.
  - destruct (assoc name k) as [d|]; [|discriminate]. destruct (assoc "nx" (d_dims d)); [|discriminate].
    destruct (assoc "ny" (d_dims d)); [|discriminate]. injection E as <-. reflexivity.
  - injection E as <-. reflexivity.
  - destruct (assoc name k) as [d|]; [|discriminate]. destruct (assoc "nx" (d_dims d)); [|discriminate].
    destruct (assoc "ny" (d_dims d)); [|discriminate]. injection E as <-. reflexivity.
Qed.
Print Assumptions C87_open_container.

(** ** Parts of a grid *)

(** Blocks written one after the other with [set_grid] end up in the frame: at
    every point the last block that covers it counts, points no block covers keep
    what they had (missing data in a new frame). The variable is created by the
    first block, with the size of the whole grid. *)
Theorem C87_grid : forall ov sub NX NY name i Bs c t,
  two_dimensional c NX NY -> private name = Ret false ->
  ((type_in_use c name t /\ shape_in_use c name [NX; NY]) \/ (unused c name /\ t = if c_double c then F8 else F4)) ->
  0 <= i -> Forall (inside NX NY) Bs -> Bs <> [] -> whole NX NY i name c ->
  exists c' l, set_grids ov sub i name Bs c = (c', Ret tt) /\ get_frame i name c' = Ret (Some ([NX; NY], l))
    /\ List.length l = (NX * NY)%nat
    /\ (forall a b pre B post, (a < NX)%nat -> (b < NY)%nat -> Bs = pre ++ B :: post -> covers B a b ->
          (forall B', In B' post -> ~ covers B' a b) ->
          nth_error l (a * NY + b) = option_map (store ov sub t) (value_at B a b))
    /\ (forall a b, (a < NX)%nat -> (b < NY)%nat -> (forall B, In B Bs -> ~ covers B a b) ->
          nth_error l (a * NY + b) = point NY i name t c a b).
Proof.
  intros ov sub NX NY name i Bs c t T PR U I0 IN NE WH.
  assert (C : exists c1, ready NX NY name t c1 /\ set_grids ov sub i name Bs c = set_grids ov sub i name Bs c1
              /\ whole NX NY i name c1 /\ forall a b, point NY i name t c1 a b = point NY i name t c a b).
  { destruct U as [[TU SU]|[UN ->]].
    - exists c. split; [split; [exact T|split; assumption]|]. auto.
    - destruct Bs as [|B Bs]; [contradiction|].
      destruct (grid_new ov sub NX NY name PR i B c T UN) as (c1 & _ & RD & G & G1 & _ & E).
      exists c1. split; [exact RD|]. split; [cbn [set_grids]; rewrite E; reflexivity|]. split.
      + intros sh l X. exfalso. eapply G1. exact X.
      + intros a b. unfold point. rewrite G. destruct (get_frame i name c1) as [[[sh l]|]|e] eqn:X; try reflexivity.
        exfalso. eapply G1. reflexivity. }
  destruct C as (c1 & RD & E & WH1 & PT).
  destruct (grids ov sub NX NY name PR t i Bs c1 RD I0 IN WH1) as (c' & S & _ & _ & G & V).
  destruct (G NE) as (l & GF & LL). exists c', l. split; [congruence|]. split; [exact GF|]. split; [exact LL|].
  assert (PV : forall a b, point NY i name t c' a b = nth_error l (a * NY + b)) by (intros; unfold point; rewrite GF; reflexivity).
  split.
  - intros a b pre B post Ha Hb -> CV NC. rewrite <- PV, (V a b Ha Hb). rewrite rev_app_distr. cbn [rev]. rewrite <- app_assoc.
    assert (FN : forall l1 l2, (forall x, In x l1 -> coversb x a b = false) ->
              find (fun B => coversb B a b) (l1 ++ l2) = find (fun B => coversb B a b) l2).
    { induction l1 as [|x l1 IH]; intros l2 H; [reflexivity|]. cbn. rewrite (H x (or_introl eq_refl)).
      apply IH. intros; apply H; right; assumption. }
    rewrite FN.
    + cbn [app find]. rewrite (proj2 (coversb_spec B a b) CV). reflexivity.
    + intros x X. apply in_rev in X. apply Bool.not_true_iff_false. rewrite coversb_spec. apply NC, X.
  - intros a b Ha Hb NC. rewrite <- PV, (V a b Ha Hb).
    destruct (find _ (rev Bs)) as [B|] eqn:FD; [|apply PT].
    apply find_some in FD. destruct FD as [I CV]. apply in_rev in I. apply coversb_spec in CV. elim (NC B I CV).
Qed.
Print Assumptions C87_grid.

(** Cutting an array into blocks that cover the grid, in any order and with
    overlaps, and writing the blocks stores the array. *)
Theorem C87_tiles : forall ov sub NX NY name i Bs c t G,
  two_dimensional c NX NY -> private name = Ret false ->
  ((type_in_use c name t /\ shape_in_use c name [NX; NY]) \/ (unused c name /\ t = if c_double c then F8 else F4)) ->
  0 <= i -> Forall (inside NX NY) Bs -> Bs <> [] -> whole NX NY i name c ->
  List.length G = (NX * NY)%nat ->
  (forall B a b, In B Bs -> covers B a b -> value_at B a b = nth_error G (a * NY + b)) ->
  (forall a b, (a < NX)%nat -> (b < NY)%nat -> exists B, In B Bs /\ covers B a b) ->
  exists c', set_grids ov sub i name Bs c = (c', Ret tt)
    /\ get_frame i name c' = Ret (Some ([NX; NY], map (store ov sub t) G)).
Proof.
  intros ov sub NX NY name i Bs c t G T PR U I0 IN NE WH LG AG CV.
  destruct (C87_grid ov sub NX NY name i Bs c t T PR U I0 IN NE WH) as (c' & l & SG & GF & LL & V & _).
  exists c'. split; [exact SG|]. rewrite GF. do 3 f_equal. apply nth_ext with (d := 0%R) (d' := 0%R); [rewrite map_length; lia|].
  intros p Hp. rewrite LL in Hp. destruct NY as [|NY']; [lia|]. set (NY := S NY') in *.
  assert (DM : p = (p / NY * NY + p mod NY)%nat) by (rewrite Nat.mul_comm; apply Nat.div_mod_eq).
  assert (Ha : (p / NY < NX)%nat) by (apply Nat.div_lt_upper_bound; lia).
  assert (Hb : (p mod NY < NY)%nat) by (apply Nat.mod_upper_bound; lia).
  destruct (CV _ _ Ha Hb) as (B0 & IB0 & CB0).
  assert (LAST : forall l0 B1, In B1 l0 -> covers B1 (p / NY) (p mod NY) -> exists pre B post, l0 = pre ++ B :: post
      /\ covers B (p / NY) (p mod NY) /\ (forall B', In B' post -> ~ covers B' (p / NY) (p mod NY))).
  { induction l0 as [|x l0 IH]; intros B1 I1 C1; [contradiction|].
    destruct (existsb (fun B => coversb B (p / NY) (p mod NY)) l0) eqn:EX.
    - apply existsb_exists in EX. destruct EX as (B2 & I2 & C2). apply coversb_spec in C2.
      destruct (IH B2 I2 C2) as (pre & B & post & -> & X & Y). exists (x :: pre), B, post. auto.
    - assert (NN : forall B', In B' l0 -> ~ covers B' (p / NY) (p mod NY)).
      { intros B' I' C'. apply coversb_spec in C'. apply Bool.not_true_iff_false in EX. apply EX, existsb_exists. exists B'. auto. }
      destruct I1 as [->|I1]; [|elim (NN B1 I1 C1)]. exists [], B1, l0. auto. }
  destruct (LAST Bs B0 IB0 CB0) as (pre & B & post & EB & CB & NP).
  pose proof (V _ _ pre B post Ha Hb EB CB NP) as VV. rewrite <- DM in VV.
  rewrite (AG B _ _ ltac:(rewrite EB; apply in_elt) CB), <- DM in VV.
  destruct (nth_error G p) as [g|] eqn:EG; [|apply nth_error_None in EG; lia].
  cbn [option_map] in VV. rewrite (nth_error_nth _ _ _ VV). symmetry. apply nth_error_nth.
  apply map_nth_error. exact EG.
Qed.
Print Assumptions C87_tiles.

(** ** Examples and limits *)
Example C87_nonvacuous : forall ov sub, exists c1 k1 c2,
  append_all ov sub "x" [1; 2; 3]%R (file22 true) = (c1, Ret tt)
  /\ open_name (at_frame "f" (-1)) Read None false (fst (close c1 [])) = (k1, Ret (OFrame c2 2))
  /\ length_of c2 = Ret 3%nat
  /\ read_opened (OFrame c2 2) "x" = Ret (Some ([], [3%R]))
  /\ get_slice (Some (-2)) None None c2 = Ret [1; 2] /\ get_slice None None (Some (-2)) c2 = Ret [2; 0]
  /\ open_name "f@one" Read None false (fst (close c1 [])) = (fst (close c1 []), Exc ValueErr)
  /\ parse_int (tx " -1_0 ") = Ret (-10).
Proof.
  intros ov sub. eexists _, _, _. repeat (split; [reflexivity|]). reflexivity.
Qed.
Example C87_grid_nonvacuous : forall ov sub, exists c1,
  two_dimensional (file22 true) 2 2 /\ unused (file22 true) "p"
  /\ Forall (inside 2 2) [mkBlock 1 2 1 0 [3; 4]%R; mkBlock 2 1 0 0 [1; 3]%R; mkBlock 1 1 0 1 [2%R]]
  /\ set_grids ov sub 0 "p" [mkBlock 1 2 1 0 [3; 4]%R; mkBlock 2 1 0 0 [1; 3]%R; mkBlock 1 1 0 1 [2%R]] (file22 true) = (c1, Ret tt)
  /\ get_frame 0 "p" c1 = Ret (Some ([2; 2]%nat, [1; 2; 3; 4]%R)).
Proof.
  intros ov sub. eexists. split; [|split; [|split; [|split; [reflexivity|reflexivity]]]].
  - repeat (split; [reflexivity|]). eexists _, _. repeat (split; [reflexivity|]). reflexivity.
  - eexists. split; reflexivity.
  - repeat constructor.
Qed.

(** A file whose name has an [@] behind its first character cannot be opened,
    although it exists. *)
Theorem C87_open_refuted : forall ov sub, exists c1 k1 c2,
  append_all ov sub "x" [1]%R (file22 true) = (c1, Ret tt)
  /\ open_container "u@h/f.nc" 0 false Read [("u@h/f.nc", match c_data c1 with Some d => d | None => empty_data end)] = (k1, Ret c2)
  /\ open_name "u@h/f.nc" Read None false [("u@h/f.nc", match c_data c1 with Some d => d | None => empty_data end)] = (k1, Exc ValueErr).
Proof. intros ov sub. eexists _, _, _. repeat (split; [reflexivity|]). reflexivity. Qed.
Print Assumptions C87_open_refuted.

(** Indices below the first frame are not refused: between [-2n] and [-n - 1]
    they are counted from the end twice. *)
Theorem C87_below_refuted : forall c n z name, length_of c = Ret n -> - 2 * Z.of_nat n <= z < - Z.of_nat n ->
  exists i, frame_index z c = Ret i /\ get_frame i name c = get_frame (z + 2 * Z.of_nat n) name c.
Proof. exact index_twice. Qed.
Print Assumptions C87_below_refuted.
Example C87_below_nonvacuous : forall ov sub, exists c1 i,
  append_all ov sub "x" [1; 2; 3]%R (file22 true) = (c1, Ret tt)
  /\ frame_index (-4) c1 = Ret i /\ get_frame i "x" c1 = Ret (Some ([], [3%R])).
Proof. intros ov sub. eexists _, _. repeat (split; [reflexivity|]). reflexivity. Qed.

(** The comment of [set_grid] says that the rest of the frame becomes undefined;
    it keeps what it had. *)
Theorem C87_padding_refuted : forall ov sub, exists c1 c2,
  set_frame ov sub 0 "p" (PArr [2; 2]%nat [1; 2; 3; 4]%R) (file22 true) = (c1, Ret tt)
  /\ set_grid ov sub 0 "p" [1; 1]%nat [9%R] 0 0 c1 = (c2, Ret tt)
  /\ get_frame 0 "p" c2 = Ret (Some ([2; 2]%nat, [9; 2; 3; 4]%R)).
Proof. intros ov sub. eexists _, _. repeat (split; [reflexivity|]). reflexivity. Qed.
Print Assumptions C87_padding_refuted.

(** Files of the Amber convention, which the class supports by name, cannot be
    opened. *)
Theorem C87_amber_refuted : forall fn fr db k d n m, m <> Write -> assoc fn k = Some d ->
  assoc "nx" (d_dims d) = None -> assoc "atom" (d_dims d) = Some n ->
  open_container fn fr db m k = (k, Exc TypeErr).
Proof.
  intros fn fr db k d n m M A X AT. unfold open_container. destruct m; [|contradiction|]; rewrite A, X, AT; reflexivity.
Qed.
Print Assumptions C87_amber_refuted.
