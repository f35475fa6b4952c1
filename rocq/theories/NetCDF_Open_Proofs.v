(** * Proofs on selecting frames *)
From Coq Require Import Reals ZArith Lia Lra List Arith Bool String Ascii Sorted.
From Verif Require Import Py Logger_Model Logger_Read NetCDF_Model NetCDF_Spec NetCDF_Proofs NetCDF_Session
  NetCDF_Cursor NetCDF_Open_Model NetCDF_Open_Spec.
Import ListNotations.
Local Open Scope Z_scope.

(** ** Sorted lists *)
Lemma sorted_ext : forall (P : Z -> Z -> Prop), (forall x y, P x y -> P y x -> False) ->
  forall l1 l2, StronglySorted P l1 -> StronglySorted P l2 -> (forall x, In x l1 <-> In x l2) -> l1 = l2.
Proof.
  intros P AS. induction l1 as [|x l1 IH]; intros l2 S1 S2 E.
  - destruct l2 as [|y l2]; [reflexivity|]. exfalso. apply (E y). left. reflexivity.
  - destruct l2 as [|y l2]; [exfalso; apply (E x); left; reflexivity|].
    apply StronglySorted_inv in S1. destruct S1 as [S1 F1]. apply StronglySorted_inv in S2. destruct S2 as [S2 F2].
    rewrite List.Forall_forall in F1, F2.
    assert (X : x = y).
    { destruct (proj1 (E x) (or_introl eq_refl)) as [H|H]; [auto|].
      destruct (proj2 (E y) (or_introl eq_refl)) as [H'|H']; [auto|].
      exfalso. eapply AS; [apply (F1 y H')|apply (F2 x H)]. }
    subst y. f_equal. apply IH; [exact S1|exact S2|]. intro z. split; intro H.
    + destruct (proj1 (E z) (or_intror H)) as [<-|H']; [|exact H']. exfalso. eapply AS; apply (F1 x H).
    + destruct (proj2 (E z) (or_intror H)) as [<-|H']; [|exact H']. exfalso. eapply AS; apply (F2 x H).
Qed.

Lemma sorted_map_seq : forall (P : Z -> Z -> Prop) (f : nat -> Z), (forall i j, (i < j)%nat -> P (f i) (f j)) ->
  forall m k, StronglySorted P (map f (seq k m)).
Proof.
  intros P f M. induction m as [|m IH]; intro k; cbn [seq map]; constructor; [apply IH|].
  apply List.Forall_forall. intros z H. apply in_map_iff in H. destruct H as (j & <- & H). apply in_seq in H. apply M. lia.
Qed.
Lemma sorted_filter : forall (P : Z -> Z -> Prop) f l, StronglySorted P l -> StronglySorted P (filter f l).
Proof.
  intros P f. induction l as [|x l IH]; intro S; [constructor|]. apply StronglySorted_inv in S. destruct S as [S F].
  cbn [filter]. destruct (f x); [|apply IH; exact S]. constructor; [apply IH; exact S|].
  rewrite List.Forall_forall in *. intros z H. apply filter_In in H. apply F, H.
Qed.
Lemma sorted_snoc : forall (P : Z -> Z -> Prop) l x, StronglySorted P l -> (forall y, In y l -> P y x) ->
  StronglySorted P (l ++ [x]).
Proof.
  intros P. induction l as [|y l IH]; intros x S H; cbn [app]; [constructor; constructor|].
  apply StronglySorted_inv in S. destruct S as [S F]. constructor; [apply IH; [exact S|intros; apply H; right; assumption]|].
  rewrite List.Forall_forall in *. intros z I. apply in_app_iff in I. destruct I as [I|[<-|[]]]; [apply F, I|apply H; left; reflexivity].
Qed.
Lemma sorted_rev : forall l, StronglySorted Z.lt l -> StronglySorted Z.gt (rev l).
Proof.
  induction l as [|x l IH]; intro S; [constructor|]. apply StronglySorted_inv in S. destruct S as [S F].
  cbn [rev]. apply sorted_snoc; [apply IH, S|]. intros y H. apply in_rev in H. rewrite List.Forall_forall in F. specialize (F y H). lia.
Qed.

Lemma in_frames : forall n i, In i (frames n) <-> 0 <= i < Z.of_nat n.
Proof.
  intros n i. unfold frames. rewrite in_map_iff. split.
  - intros (j & <- & H). apply in_seq in H. lia.
  - intro H. exists (Z.to_nat i). split; [lia|]. apply in_seq. lia.
Qed.
Lemma frames_sorted : forall n, StronglySorted Z.lt (frames n).
Proof. intro n. apply sorted_map_seq. intros. lia. Qed.

(** ** Slices *)
Lemma in_range_up : forall a b s i, 0 < s ->
  (In i (range_list a b s) <-> a <= i < b /\ (i - a) mod s = 0).
Proof.
  intros a b s i S. unfold range_list, range_length. rewrite in_map_iff.
  destruct (Z.ltb_spec 0 s); [|lia]. split.
  - intros (k & <- & K). apply in_seq in K. destruct (Z.ltb_spec a b); [|lia].
    assert (X : Z.of_nat k <= (b - a - 1) / s) by lia.
    assert (Y : s * ((b - a - 1) / s) <= b - a - 1) by (apply Z.mul_div_le; lia).
    split; [nia|]. replace (a + Z.of_nat k * s - a) with (Z.of_nat k * s) by lia. apply Z.mod_mul. lia.
  - intros [B Mo]. apply Z.mod_divide in Mo; [|lia]. destruct Mo as [q Q]. exists (Z.to_nat q).
    assert (0 <= q) by nia. split; [lia|]. apply in_seq. destruct (Z.ltb_spec a b); [|lia].
    assert (q <= (b - a - 1) / s) by (apply Z.div_le_lower_bound; lia). lia.
Qed.
Lemma in_range_down : forall a b s i, s < 0 ->
  (In i (range_list a b s) <-> b < i <= a /\ (a - i) mod s = 0).
Proof.
  intros a b s i S. unfold range_list, range_length. rewrite in_map_iff.
  destruct (Z.ltb_spec 0 s); [lia|]. split.
  - intros (k & <- & K). apply in_seq in K. destruct (Z.ltb_spec b a); [|lia].
    assert (X : Z.of_nat k <= (a - b - 1) / - s) by lia.
    assert (Y : - s * ((a - b - 1) / - s) <= a - b - 1) by (apply Z.mul_div_le; lia).
    split; [nia|]. replace (a - (a + Z.of_nat k * s)) with (- Z.of_nat k * s) by lia. apply Z.mod_mul. lia.
  - intros [B Mo]. apply Z.mod_divide in Mo; [|lia]. destruct Mo as [q Q]. exists (Z.to_nat (- q)).
    assert (q <= 0) by nia. split; [lia|]. apply in_seq. destruct (Z.ltb_spec b a); [|lia].
    assert (- q <= (a - b - 1) / - s) by (apply Z.div_le_lower_bound; lia). lia.
Qed.

Lemma frame_indices_id : forall c l, (forall i, In i l -> 0 <= i) -> frame_indices l c = Ret l.
Proof.
  intros c. induction l as [|i l IH]; intro H; [reflexivity|]. cbn [frame_indices]. unfold frame_index.
  destruct (Z.ltb_spec i 0) as [L|L]; [specialize (H i (or_introl eq_refl)); lia|]. cbn [bind].
  rewrite IH; [reflexivity|]. intros; apply H; right; assumption.
Qed.

Lemma slice_up : forall c n a b s, length_of c = Ret n -> 0 < or_else s (fun z => z) 1 ->
  get_slice a b s c = Ret (upwards n a b (or_else s (fun z => z) 1)).
Proof.
  intros c n a b s L S. unfold get_slice. rewrite L. cbn [bind]. unfold slice_indices.
  change (match s with None => 1 | Some z => z end) with (or_else s (fun z => z) 1).
  set (st := or_else s (fun z => z) 1) in *. destruct (Z.eqb_spec st 0); [lia|].
  destruct (Z.ltb_spec st 0); [lia|]. cbn [bind].
  set (A := adjust 0 (Z.of_nat n) n 0 a). set (B := adjust 0 (Z.of_nat n) n (Z.of_nat n) b).
  assert (A0 : 0 <= A) by (unfold A, adjust; destruct a as [z|]; [destruct (Z.ltb_spec z 0); lia|lia]).
  assert (Bn : B <= Z.of_nat n) by (unfold B, adjust; destruct b as [z|]; [destruct (Z.ltb_spec z 0); lia|lia]).
  rewrite frame_indices_id; [|intros i H1; apply in_range_up in H1; [lia|exact S]].
  f_equal. apply (sorted_ext Z.lt); [lia| | |].
  - apply sorted_map_seq. intros. nia.
  - apply sorted_filter, frames_sorted.
  - intro i. rewrite in_range_up by exact S. unfold upwards. rewrite filter_In, in_frames.
    set (F := Z.max 0 (or_else a (from_end n) 0)). set (T := or_else b (from_end n) (Z.of_nat n)).
    rewrite !andb_true_iff, Z.leb_le, Z.ltb_lt, Z.eqb_eq.
    assert (AF : A = Z.min (Z.of_nat n) F).
    { unfold A, F, adjust, or_else, from_end. destruct a as [z|]; [destruct (Z.ltb_spec z 0); lia|lia]. }
    assert (BT : 0 <= i < Z.of_nat n -> (i < B <-> i < T)).
    { unfold B, T, adjust, or_else, from_end. destruct b as [z|]; [destruct (Z.ltb_spec z 0); lia|lia]. }
    split.
    + intros [[H1 H2] H3]. assert (R : 0 <= i < Z.of_nat n) by lia. assert (A = F) by lia.
      split; [exact R|]. split; [split; [lia|apply BT; [exact R|lia]]|congruence].
    + intros [R [[H1 H2] H3]]. assert (A = F) by lia. split; [split; [lia|apply BT; assumption]|congruence].
Qed.
Lemma slice_down : forall c n a b s, length_of c = Ret n -> s < 0 ->
  get_slice a b (Some s) c = Ret (downwards n a b s).
Proof.
  intros c n a b s L S. unfold get_slice. rewrite L. cbn [bind]. unfold slice_indices.
  destruct (Z.eqb_spec s 0); [lia|]. destruct (Z.ltb_spec s 0); [|lia]. cbn [bind].
  set (A := adjust (-1) (Z.of_nat n - 1) n (Z.of_nat n - 1) a). set (B := adjust (-1) (Z.of_nat n - 1) n (-1) b).
  assert (B0 : -1 <= B) by (unfold B, adjust; destruct b as [z|]; [destruct (Z.ltb_spec z 0); lia|lia]).
  rewrite frame_indices_id; [|intros i H1; apply in_range_down in H1; [lia|exact S]].
  f_equal. apply (sorted_ext Z.gt); [lia| | |].
  - apply sorted_map_seq. intros. nia.
  - apply sorted_rev, sorted_filter, frames_sorted.
  - intro i. rewrite in_range_down by exact S. unfold downwards. rewrite <- in_rev, filter_In, in_frames.
    set (F := Z.min (Z.of_nat n - 1) (or_else a (from_end n) (Z.of_nat n - 1))). set (T := or_else b (from_end n) (-1)).
    rewrite !andb_true_iff, Z.leb_le, Z.ltb_lt, Z.eqb_eq.
    assert (AF : A = Z.max (-1) F).
    { unfold A, F, adjust, or_else, from_end. destruct a as [z|]; [destruct (Z.ltb_spec z 0); lia|lia]. }
    assert (BT : 0 <= i < Z.of_nat n -> (B < i <-> T < i)).
    { unfold B, T, adjust, or_else, from_end. destruct b as [z|]; [destruct (Z.ltb_spec z 0); lia|lia]. }
    assert (An : A <= Z.of_nat n - 1) by (unfold A, adjust; destruct a as [z|]; [destruct (Z.ltb_spec z 0); lia|lia]).
    split.
    + intros [[H1 H2] H3]. assert (R : 0 <= i < Z.of_nat n) by lia. assert (A = F) by lia.
      split; [exact R|]. split; [split; [lia|apply BT; [exact R|lia]]|congruence].
    + intros [R [[H1 H2] H3]]. assert (A = F) by lia. split; [split; [apply BT; assumption|lia]|congruence].
Qed.

(** ** Indices *)
Lemma private_of : forall name, private name = Ret false -> exists a s, name = String a s.
Proof. intros [|a s] H; [discriminate|]. exists a, s. reflexivity. Qed.

Lemma index_twice : forall c n z name, length_of c = Ret n -> - 2 * Z.of_nat n <= z < - Z.of_nat n ->
  exists i, frame_index z c = Ret i /\ get_frame i name c = get_frame (z + 2 * Z.of_nat n) name c.
Proof.
  intros c n z name L B. unfold frame_index. destruct (Z.ltb_spec z 0); [|lia]. rewrite L. cbn [bind].
  eexists. split; [reflexivity|]. unfold length_of in L. apply bindRet in L. destruct L as (d & D & L).
  unfold get_frame. destruct (private name) as [p|e]; [|reflexivity]. cbn [bind]. destruct p; [reflexivity|].
  rewrite D. cbn [bind]. destruct (assoc name (d_vars d)) as [x|]; [|reflexivity].
  destruct (d_frames d) as [m|]; [|reflexivity]. injection L as ->. destruct (v_framed x); [|reflexivity]. cbv zeta.
  destruct (Z.ltb_spec (z + Z.of_nat n) 0); [|lia]. destruct (Z.ltb_spec (z + 2 * Z.of_nat n) 0); [lia|].
  replace (z + Z.of_nat n + Z.of_nat n) with (z + 2 * Z.of_nat n) by lia. reflexivity.
Qed.

Lemma past_end : forall c n z name sh, length_of c = Ret n -> Z.of_nat n <= z -> private name = Ret false ->
  shape_in_use c name sh -> frame_index z c = Ret z /\ get_frame z name c = Exc IndexError.
Proof.
  intros c n z name sh L B PR (d & x & D & A & F & _). unfold frame_index. destruct (Z.ltb_spec z 0); [lia|].
  split; [reflexivity|]. unfold length_of, data in L. rewrite D in L. cbn [bind] in L.
  destruct (d_frames d) as [m|] eqn:FR; [|discriminate]. injection L as ->.
  unfold get_frame, data. rewrite PR, D. cbn [bind]. rewrite A, FR, F. cbv zeta.
  destruct (Z.ltb_spec z 0); [lia|]. destruct (Z.ltb_spec z 0); [lia|].
  destruct (Nat.ltb_spec (Z.to_nat z) n); [lia|reflexivity].
Qed.

(** ** [open] *)
Lemma cut_none : forall s, ~ has_at s -> cut s = None.
Proof.
  induction s as [|a s IH]; intro H; [reflexivity|]. cbn [cut]. destruct (Ascii.eqb_spec a "@"%char) as [->|N].
  - exfalso. apply H. left. reflexivity.
  - rewrite IH; [reflexivity|]. intro K. apply H. right. exact K.
Qed.
Lemma cut_app : forall s q, ~ has_at s -> cut (String.append s (String "@"%char q)) = Some (s, q).
Proof.
  induction s as [|a s IH]; intros q H; [reflexivity|]. cbn [String.append cut]. destruct (Ascii.eqb_spec a "@"%char) as [->|N].
  - exfalso. apply H. left. reflexivity.
  - rewrite IH; [reflexivity|]. intro K. apply H. right. exact K.
Qed.
Lemma underscores_digits : forall s, s <> [] -> forallb is_digit s = true -> underscores s = Some s.
Proof.
  induction s as [|c s IH]; intros N D; [contradiction|]. cbn [forallb] in D. apply andb_true_iff in D. destruct D as [Dc Ds].
  cbn [underscores]. rewrite Dc. destruct s as [|d s']; [reflexivity|].
  assert (Dd : is_digit d = true) by (cbn [forallb] in Ds; apply andb_true_iff in Ds; apply Ds).
  destruct (Ascii.eqb_spec d "_"%char) as [->|_]; [discriminate|]. rewrite IH; [reflexivity|discriminate|exact Ds].
Qed.
Lemma unsigned_parse : forall s z, unsigned s = Some z -> option_map nat_value (underscores s) = Some z.
Proof.
  intros s z H. unfold unsigned in H. destruct s as [|c s]; [discriminate|].
  destruct (forallb is_digit (c :: s)) eqn:D; [|discriminate]. rewrite underscores_digits; [exact H|discriminate|exact D].
Qed.
Lemma parse_signed : forall s z, clean is_space s -> signed s = Some z -> parse_int s = Ret z.
Proof.
  intros s z C H. unfold parse_int. rewrite strip_space_clean by exact C. unfold signed in H.
  destruct s as [|c s]; [discriminate|]. destruct (Ascii.eqb c "-"%char).
  - destruct (unsigned s) as [y|] eqn:U; [|discriminate]. rewrite (unsigned_parse s y U). cbn in *. congruence.
  - destruct (Ascii.eqb c "+"%char).
    + rewrite (unsigned_parse s z H). reflexivity.
    + rewrite (unsigned_parse (c :: s) z H). reflexivity.
Qed.
Lemma parse_str_int : forall z, parse_int (str_int z) = Ret z.
Proof.
  intro z. apply parse_signed; [|apply signed_str_int]. destruct (str_int_fine z) as [C _].
  intros c I. apply bad_blank. apply C, I.
Qed.

Lemma open_at : forall name z m fr db k, name <> ""%string -> ~ has_at name ->
  open_name (at_frame name z) m fr db k = select z (open_container name 0 db m k).
Proof.
  intros name z m fr db k NE NA. unfold open_name, at_frame. rewrite cut_app by exact NA.
  destruct name as [|a s]; [contradiction|]. rewrite list_ascii_of_string_of_list_ascii, parse_str_int. reflexivity.
Qed.
Lemma open_frame_kw : forall name z m db k, (~ has_at name \/ exists s, name = String "@"%char s) ->
  open_name name m (Some z) db k = select z (open_container name 0 db m k).
Proof.
  intros name z m db k [H|[s ->]]; unfold open_name; [rewrite cut_none by exact H; reflexivity|]. reflexivity.
Qed.
Lemma open_plain : forall name m db k, (~ has_at name \/ exists s, name = String "@"%char s) ->
  open_name name m None db k = (fst (open_container name 0 db m k),
     bind (snd (open_container name 0 db m k)) (fun c => Ret (OContainer c))).
Proof.
  intros name m db k [H|[s ->]]; unfold open_name; [rewrite cut_none by exact H; reflexivity|]. reflexivity.
Qed.

Lemma select_frame : forall c n z k', length_of c = Ret n -> - Z.of_nat n <= z < Z.of_nat n ->
  select z (k', Ret c) = (k', Ret (OFrame c (z mod Z.of_nat n))).
Proof.
  intros c n z k' L B. unfold select, frame_index. cbn [fst snd bind]. destruct (Z.ltb_spec z 0) as [N|N].
  - rewrite L. cbn [bind]. do 3 f_equal. replace z with (z + Z.of_nat n + (-1) * Z.of_nat n) at 2 by lia.
    rewrite Z.mod_add by lia. rewrite Z.mod_small by lia. reflexivity.
  - cbn [bind]. do 3 f_equal. rewrite Z.mod_small by lia. reflexivity.
Qed.

(** The characters [int] may accept. *)
Definition int_char (c : ascii) : bool :=
  is_digit c || is_space c || Ascii.eqb c "_"%char || Ascii.eqb c "-"%char || Ascii.eqb c "+"%char.
Lemma underscores_bad : forall n s c, (List.length s <= n)%nat -> In c s -> int_char c = false -> underscores s = None.
Proof.
  induction n as [|n IH]; intros s c L I B; [destruct s; [contradiction|cbn in L; lia]|].
  destruct s as [|a s]; [contradiction|]. cbn [underscores]. cbn [List.length] in L.
  assert (BD : is_digit c = false /\ Ascii.eqb c "_"%char = false).
  { unfold int_char in B. destruct (is_digit c); [discriminate|]. destruct (is_space c); [discriminate|].
    destruct (Ascii.eqb c "_"%char); [discriminate|]. auto. }
  destruct BD as [B1 B2]. destruct (is_digit a) eqn:DA; [|reflexivity].
  destruct I as [->|I]; [congruence|]. destruct s as [|d s']; [contradiction|].
  destruct (Ascii.eqb_spec d "_"%char) as [->|N].
  - destruct I as [<-|I]; [discriminate|]. rewrite (IH s' c); [reflexivity|cbn in L; lia|exact I|exact B].
  - rewrite (IH (d :: s') c); [reflexivity|cbn in *; lia|exact I|exact B].
Qed.
Lemma lstrip_space_in : forall s c, In c s -> is_space c = false -> In c (lstrip_space s).
Proof.
  induction s as [|a s IH]; intros c I N; [contradiction|]. cbn [lstrip_space]. destruct (is_space a) eqn:A; [|exact I].
  destruct I as [->|I]; [congruence|]. apply IH; assumption.
Qed.
Lemma parse_bad : forall s c, In c s -> int_char c = false -> parse_int s = Exc ValueErr.
Proof.
  intros s c I B. unfold parse_int.
  assert (SP : is_space c = false) by (unfold int_char in B; destruct (is_digit c); [discriminate|]; destruct (is_space c); [discriminate|reflexivity]).
  assert (J : In c (strip_space s)).
  { unfold strip_space. apply in_rev. rewrite rev_involutive. apply lstrip_space_in; [|exact SP].
    apply -> in_rev. apply lstrip_space_in; assumption. }
  destruct (strip_space s) as [|a t]; [reflexivity|].
  assert (X : forall u, In c u -> option_map nat_value (underscores u) = None).
  { intros u IU. rewrite (underscores_bad _ u c (le_n _) IU B). reflexivity. }
  destruct J as [->|J].
  - assert (Y : Ascii.eqb c "-"%char = false /\ Ascii.eqb c "+"%char = false).
    { unfold int_char in B. destruct (is_digit c), (is_space c), (Ascii.eqb c "_"%char), (Ascii.eqb c "-"%char), (Ascii.eqb c "+"%char);
        try discriminate; auto. }
    destruct Y as [-> ->]. rewrite X; [reflexivity|left; reflexivity].
  - destruct (Ascii.eqb a "-"%char); [rewrite X by exact J; reflexivity|].
    destruct (Ascii.eqb a "+"%char); [rewrite X by exact J; reflexivity|].
    rewrite X; [reflexivity|right; exact J].
Qed.
