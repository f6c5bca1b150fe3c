(** C21, C27, C31, C33, C34. *)
From Coq Require Import Relations.
From Verif Require Import Base Lexical SymExecModel AsmModel MachineSpec LexicalProofs DepsModel SpecModel UtilModel.
Open Scope string_scope. Open Scope list_scope.

(* ------------------------------------------------------------------ *)
(** C27: the least number of bytes that hold a number. *)
Definition least_bytes (n : Z) (k : nat) : Prop :=
  (n < 256 ^ Z.of_nat k)%Z /\ forall k', (n < 256 ^ Z.of_nat k')%Z -> k <= k'.

Lemma encoding_loop_spec fuel : forall n i, (0 <= n < 256 ^ Z.of_nat fuel)%Z ->
  exists k, encoding_loop fuel n i = Ok (i + k) /\ least_bytes n k.
Proof.
  induction fuel as [|fuel IH]; intros n i H.
  - assert (n = 0)%Z by (simpl in H; lia). subst. exists 0. simpl. split; [f_equal; lia|]. split; [simpl; lia|intros; lia].
  - cbn [encoding_loop]. destruct (Z.eqb_spec n 0) as [->|N].
    + exists 0. split; [f_equal; lia|]. split; [simpl; lia|intros; lia].
    + rewrite Z.shiftr_div_pow2 by lia. change (2 ^ 8)%Z with 256%Z.
      rewrite Nat2Z.inj_succ, Z.pow_succ_r in H by lia.
      destruct (IH (n / 256)%Z (S i)) as (k & E & L1 & L2).
      { split; [apply Z.div_pos; lia|]. apply Z.div_lt_upper_bound; lia. }
      exists (S k). split; [rewrite E; f_equal; lia|]. split.
      * rewrite Nat2Z.inj_succ, Z.pow_succ_r by lia. pose proof (Z.div_mod n 256 ltac:(lia)).
        pose proof (Z.mod_pos_bound n 256 ltac:(lia)). lia.
      * intros [|k'] Hk; [simpl in Hk; lia|]. rewrite Nat2Z.inj_succ, Z.pow_succ_r in Hk by lia.
        apply le_n_S, L2. apply Z.div_lt_upper_bound; lia.
Qed.

Lemma fuel_enough n : (0 <= n)%Z -> forall m, (n <= m)%Z -> (n < 256 ^ Z.of_nat (S (Z.to_nat (Z.log2 m))))%Z.
Proof.
  intros H m L. rewrite Nat2Z.inj_succ, Z2Nat.id by apply Z.log2_nonneg.
  destruct (Z.eq_dec m 0) as [->|N]; [assert (n = 0)%Z by lia; subst; simpl; lia|].
  pose proof (Z.log2_spec m ltac:(lia)) as [_ U].
  assert (2 ^ Z.succ (Z.log2 m) <= 256 ^ Z.succ (Z.log2 m))%Z; [|lia].
  apply Z.pow_le_mono_l. lia.
Qed.

(** For every integer down to -2^256 the size is the least number of bytes of
    the 256-bit word (two's complement for negative numbers). *)
Theorem encoding_size_minimal : forall z, (- 2 ^ 256 <= z)%Z ->
  exists k, number_encoding_size z = Ok k
    /\ least_bytes (if (z <? 0)%Z then (2 ^ 256 + z)%Z else z) k.
Proof.
  intros z H. unfold number_encoding_size, number_encoding_size_fuel.
  set (n := if (z <? 0)%Z then (2 ^ 256 + z)%Z else z).
  assert (0 <= n <= Z.max (Z.abs z) (2 ^ 256))%Z by (subst n; destruct (Z.ltb_spec z 0); lia).
  edestruct (encoding_loop_spec (S (Z.to_nat (Z.log2 (Z.max (Z.abs z) (2 ^ 256))))) n 0) as (k & E & L).
  { split; [lia|]. apply fuel_enough; lia. }
  exists k. split; [exact E|exact L].
Qed.

(** Below that the loop never ends, however long it runs. *)
Theorem encoding_size_diverges_refuted : forall z fuel, (z < - 2 ^ 256)%Z ->
  number_encoding_size_fuel fuel z = Raise OutOfFuel.
Proof.
  intros z fuel H. unfold number_encoding_size_fuel. destruct (Z.ltb_spec z 0) as [_|Q]; [|lia].
  assert (G : forall n i, (n < 0)%Z -> encoding_loop fuel n i = Raise OutOfFuel).
  { induction fuel as [|fuel IH]; intros n i N; cbn [encoding_loop]; destruct (Z.eqb_spec n 0); try lia; auto.
    apply IH. rewrite Z.shiftr_neg. exact N. }
  apply G. lia.
Qed.

(** The number used for PUSHn: at least one byte, and for words at most 32. *)
Theorem push_bytes : forall z, (0 <= z < 2 ^ 256)%Z ->
  exists k, get_num_bytes_int z = Ok k /\ 1 <= k <= 32 /\ (z < 256 ^ Z.of_nat k)%Z
    /\ forall k', 1 <= k' -> (z < 256 ^ Z.of_nat k')%Z -> k <= k'.
Proof.
  intros z H. destruct (encoding_size_minimal z) as (k & E & L1 & L2); [lia|].
  destruct (Z.ltb_spec z 0); [lia|]. unfold get_num_bytes_int. rewrite E. cbn [bind].
  exists (Nat.max 1 k). split; [reflexivity|]. split; [split; [lia|]|].
  - apply Nat.max_lub; [lia|]. apply L2. change (256 ^ Z.of_nat 32)%Z with (2 ^ 256)%Z. lia.
  - split; [|intros k' Hk Hz; apply Nat.max_lub; auto].
    eapply Z.lt_le_trans; [exact L1|]. apply Z.pow_le_mono_r; lia.
Qed.

(** The size charged for a PUSH is that of the instruction: the opcode byte and
    the least number of bytes (at least one) of the constant. *)
Theorem push_instruction_size : forall z, (0 <= z < 2 ^ 256)%Z ->
  exists k, get_ins_size "PUSH" z = Ok (1 + k) /\ 1 <= k <= 32 /\ (z < 256 ^ Z.of_nat k)%Z
    /\ forall k', 1 <= k' -> (z < 256 ^ Z.of_nat k')%Z -> k <= k'.
Proof.
  intros z H. destruct (push_bytes z H) as (k & E & R). exists k. split; [|exact R].
  unfold get_ins_size. cbn [String.eqb Ascii.eqb Bool.eqb]. rewrite E. reflexivity.
Qed.

(** Opcode bytes.  Every opcode the specifications mention is rendered with two
    hexadecimal digits which read back as the byte ... *)
Definition two_digits (s : string) (b : Z) : Prop := String.length s = 2 /\ py_int16 s = Some b.
Definition render (b : Z) : result string := process_opcode (str_Z b).
Theorem opcode_bytes_two_digits : forall op b, get_opcode op = Some b ->
  exists s, render b = Ok s /\ two_digits s b.
Proof.
  intros op b H.
  assert (K : In b (map snd opcode_table ++ [0xff; 0x3d; 0x3e; 0x5f; 0x60])%Z).
  { unfold get_opcode in H. destruct (lookup op opcode_table) eqn:E.
    - injection H as ->. apply in_app_iff. left. revert E. generalize opcode_table. intros t.
      induction t as [|[k v] t IH]; simpl; [discriminate|]. destruct (k =? op); [injection 1 as ->; auto|auto].
    - apply in_app_iff. right.
      repeat match type of H with (if ?c then _ else _) = _ => destruct c end; try discriminate; injection H as <-; simpl; auto 10. }
  assert (A : forallb (fun b => match render b with
                | Ok s => (String.length s =? 2)%nat && match py_int16 s with Some z => (z =? b)%Z | None => false end
                | Raise _ => false end) (map snd opcode_table ++ [0xff; 0x3d; 0x3e; 0x5f; 0x60])%Z = true) by (vm_compute; reflexivity).
  rewrite forallb_forall in A. specialize (A b K). destruct (render b) as [s|]; [|discriminate].
  exists s. split; [reflexivity|]. apply andb_true_iff in A as [A1 A2]. split; [now apply Nat.eqb_eq|].
  destruct (py_int16 s); [|discriminate]. apply Z.eqb_eq in A2. congruence.
Qed.

(** ... but the padding stops at 11, so a byte from 12 to 15 gets one digit. *)
Theorem opcode_padding_refuted : forall b, (12 <= b < 16)%Z ->
  exists s, render b = Ok s /\ String.length s = 1.
Proof.
  intros b H. assert (b = 12 \/ b = 13 \/ b = 14 \/ b = 15)%Z by lia.
  decompose [or] H0; subst; eexists; split; vm_compute; reflexivity.
Qed.

(** The byte of RETURNDATASIZE is the one of EXTCODECOPY. *)
Theorem returndatasize_opcode_refuted : get_opcode "RETURNDATASIZE" = get_opcode "EXTCODECOPY".
Proof. reflexivity. Qed.

Example push_bytes_example : get_num_bytes_int 65536 = Ok 3 /\ get_num_bytes_int 0 = Ok 1 /\ get_num_bytes_int (-1) = Ok 32.
Proof. vm_compute. auto. Qed.
Print Assumptions encoding_size_minimal.
Print Assumptions encoding_size_diverges_refuted.
Print Assumptions push_bytes.
Print Assumptions push_instruction_size.
Print Assumptions opcode_bytes_two_digits.
Print Assumptions opcode_padding_refuted.
Print Assumptions returndatasize_opcode_refuted.

(* ------------------------------------------------------------------ *)
(** C33: braces. *)
Definition is_brace (c : ascii) : bool := Ascii.eqb c "{" || Ascii.eqb c "}".
(** Texts in which braces match. *)
Inductive balanced : list ascii -> Prop :=
| bal_nil : balanced []
| bal_char c l : is_brace c = false -> balanced l -> balanced (c :: l)
| bal_braces l r : balanced l -> balanced r -> balanced ("{"%char :: l ++ "}"%char :: r).
Definition object_text (o : list ascii) : Prop := exists l, balanced l /\ o = "{"%char :: l ++ ["}"%char].
Definition no_braces (l : list ascii) : Prop := forall c, In c l -> is_brace c = false.

(** A file: separator, object, separator, object, ..., separator. *)
Fixpoint file_of (parts : list (list ascii * list ascii)) (last : list ascii) : list ascii :=
  match parts with [] => last | (sep, o) :: rest => sep ++ o ++ file_of rest last end.
(** What one expects: the decoded objects, each with the position of its end. *)
Fixpoint expected {J} (loads : list ascii -> option J) (i : nat) (parts : list (list ascii * list ascii)) : list (nat * J) :=
  match parts with
  | [] => []
  | (sep, o) :: rest =>
      let e := i + length sep + length o in
      match loads (replace_quote o) with
      | Some j => (e - 1, j) :: expected loads e rest
      | None => expected loads e rest
      end
  end.

Section Split.
Context {J : Type} (loads : list ascii -> option J).
Lemma split_plain all l : no_braces l -> forall rest i ini lv out,
  split_loop loads all (l ++ rest) i ini lv out = split_loop loads all rest (i + length l) ini lv out.
Proof.
  induction l as [|c l IH]; intros H rest i ini lv out; simpl; [f_equal; lia|].
  assert (B : is_brace c = false) by (apply H; left; reflexivity). unfold is_brace in B. apply orb_false_iff in B as [B1 B2].
  rewrite B1, B2, IH by (intros d Hd; apply H; right; exact Hd). f_equal. lia.
Qed.
Lemma split_balanced all l : balanced l -> forall rest i ini lv out, (0 < lv)%Z ->
  split_loop loads all (l ++ rest) i ini lv out = split_loop loads all rest (i + length l) ini lv out.
Proof.
  induction 1 as [|c l B H IH|l r Hl IHl Hr IHr]; intros rest i ini lv out P.
  - simpl. f_equal. lia.
  - simpl. unfold is_brace in B. apply orb_false_iff in B as [-> ->]. rewrite IH by exact P. f_equal. lia.
  - cbn [app split_loop]. cbn [Ascii.eqb Bool.eqb]. destruct (Z.eqb_spec lv 0); [lia|].
    rewrite <- app_assoc. rewrite IHl by lia. cbn [app split_loop]. cbn [Ascii.eqb Bool.eqb].
    destruct (Z.eqb_spec (lv + 1 - 1) 0); [lia|]. replace (lv + 1 - 1)%Z with lv by lia. rewrite IHr by exact P.
    f_equal. simpl. rewrite app_length. simpl. lia.
Qed.

Lemma slice_exact (pre o post : list ascii) : slice (pre ++ o ++ post) (length pre) (length pre + length o) = o.
Proof.
  unfold slice. rewrite skipn_app, skipn_all, Nat.sub_diag. cbn [skipn app].
  replace (length pre + length o - length pre) with (length o) by lia.
  rewrite firstn_app, firstn_all, Nat.sub_diag. cbn [firstn]. apply app_nil_r.
Qed.

Lemma split_parts parts : forall pre last ini out,
  (forall sep o, In (sep, o) parts -> no_braces sep /\ object_text o) -> no_braces last ->
  split_loop loads (pre ++ file_of parts last) (file_of parts last) (length pre) ini 0 out
  = out ++ expected loads (length pre) parts.
Proof.
  induction parts as [|[sep o] parts IH]; intros pre last ini out H Hl.
  - cbn [file_of expected]. rewrite <- (app_nil_r last) at 2. rewrite split_plain by exact Hl. simpl. now rewrite app_nil_r.
  - destruct (H sep o (or_introl eq_refl)) as [Hs (l & Hb & ->)]. cbn [file_of expected].
    rewrite split_plain by exact Hs. set (o := "{"%char :: l ++ ["}"%char]) in *.
    change (o ++ file_of parts last) with ("{"%char :: (l ++ ["}"%char]) ++ file_of parts last) at 2.
    cbn [split_loop]. cbn [Ascii.eqb Bool.eqb Z.eqb]. rewrite <- app_assoc. rewrite split_balanced by (auto; lia).
    cbn [app split_loop]. cbn [Ascii.eqb Bool.eqb Z.eqb Z.add Z.sub Z.opp Pos.add Z.pos_sub].
    replace (pre ++ sep ++ o ++ file_of parts last) with ((pre ++ sep) ++ o ++ file_of parts last) by now rewrite <- app_assoc.
    assert (Lo : length o = S (S (length l))) by (subst o; simpl; rewrite app_length; simpl; lia).
    replace (length pre + length sep) with (length (pre ++ sep)) by now rewrite app_length.
    replace (S (S (length (pre ++ sep)) + length l)) with (length (pre ++ sep) + length o) by lia.
    rewrite slice_exact.
    replace ((pre ++ sep) ++ o ++ file_of parts last) with (((pre ++ sep) ++ o) ++ file_of parts last) by now rewrite <- app_assoc.
    replace (length (pre ++ sep) + length o) with (length ((pre ++ sep) ++ o)) by now rewrite app_length.
    assert (Hp : forall sep o, In (sep, o) parts -> no_braces sep /\ object_text o) by (intros; apply H; right; assumption).
    destruct (loads (replace_quote o)) as [j|].
    + rewrite IH by assumption. rewrite <- app_assoc. cbn [app]. do 3 f_equal. rewrite (app_length (pre ++ sep) o). lia.
    + rewrite IH by assumption. reflexivity.
Qed.

(** Exactly the top-level objects that decode, in order. *)
Theorem split_json_objects : forall parts last,
  (forall sep o, In (sep, o) parts -> no_braces sep /\ object_text o) -> no_braces last ->
  split_json loads (file_of parts last) = expected loads 0 parts.
Proof. intros parts last H Hl. unfold split_json. apply (split_parts parts [] last 0 [] H Hl). Qed.
End Split.

(** A brace inside a text of the object cuts it: here nothing is returned
    although the file is a single JSON object. *)
Theorem split_json_brace_in_text_refuted : forall J (loads : list ascii -> option J),
  split_json loads (list_ascii_of_string "{""a"": ""{""}") = [].
Proof. reflexivity. Qed.

(** Apostrophes inside texts are rewritten before decoding. *)
Theorem split_json_apostrophe_refuted : exists o, object_text (list_ascii_of_string o) /\
  forall J (loads : list ascii -> option J),
    split_json loads (list_ascii_of_string o)
    = match loads (list_ascii_of_string "{""a"": ""it""s""}") with Some j => [(12, j)] | None => [] end
    /\ o = "{""a"": ""it's""}".
Proof.
  eexists. split; [|intros; split; [|reflexivity]; reflexivity].
  exists (list_ascii_of_string """a"": ""it's"""). split; [|reflexivity].
  repeat (apply bal_char; [reflexivity|]). constructor.
Qed.

Example split_json_example : split_json (fun l => Some (length l)) (list_ascii_of_string "x {a{b}} { } y") = [(7, 6); (11, 3)].
Proof. reflexivity. Qed.
Print Assumptions split_json_objects.
Print Assumptions split_json_brace_in_text_refuted.
Print Assumptions split_json_apostrophe_refuted.

(* ------------------------------------------------------------------ *)
(** C21: histories of tag requests on one dictionary (initially empty). *)
Lemma lookup_app {A} k (d e : list (string * A)) :
  lookup k (d ++ e) = match lookup k d with Some v => Some v | None => lookup k e end.
Proof. induction d as [|[k' v] d IH]; simpl; auto. destruct (k' =? k); auto. Qed.
Lemma lookup_In {A} k (v : A) d : lookup k d = Some v -> In (k, v) d.
Proof.
  induction d as [|[k' v'] d IH]; simpl; [discriminate|]. destruct (String.eqb_spec k' k) as [->|]; [injection 1 as ->; auto|auto].
Qed.
Lemma lookup_None {A} k (d : list (string * A)) : lookup k d = None <-> ~ In k (map fst d).
Proof.
  induction d as [|[k' v] d IH]; simpl; [tauto|]. destruct (String.eqb_spec k' k) as [->|N]; [split; [discriminate|tauto]|].
  rewrite IH. tauto.
Qed.

Record tags_ok (tags : list (string * nat)) : Prop := {
  tk_keys : NoDup (map fst tags);
  tk_vals : map snd tags = seq 1 (length tags)
}.
Lemma tags_step b tags t tags' : tags_ok tags -> tag_from_tag_dict b tags = (t, tags') ->
  tags_ok tags' /\ lookup b tags' = Some t /\ (forall k v, lookup k tags = Some v -> lookup k tags' = Some v)
  /\ (forall k v, lookup k tags' = Some v -> k = b \/ lookup k tags = Some v).
Proof.
  intros [K V] H. unfold tag_from_tag_dict in H. destruct (lookup b tags) as [t0|] eqn:L; injection H as <- <-.
  - split; [constructor; assumption|]. auto.
  - split; [constructor|].
    + rewrite map_app. simpl. apply lookup_None in L. apply NoDup_Add with (a := b) (l := map fst tags); [|auto].
      rewrite <- (app_nil_r (map fst tags)) at 1. apply Add_app.
    + rewrite map_app, V, app_length. simpl. rewrite seq_app. simpl. f_equal. f_equal. lia.
    + split; [rewrite lookup_app, L; simpl; now rewrite String.eqb_refl|]. split.
      * intros k v Q. rewrite lookup_app, Q. reflexivity.
      * intros k v Q. rewrite lookup_app in Q. destruct (lookup k tags); [auto|]. simpl in Q.
        destruct (String.eqb_spec b k); [auto|discriminate].
Qed.
Lemma tags_inj tags k1 k2 v : tags_ok tags -> lookup k1 tags = Some v -> lookup k2 tags = Some v -> k1 = k2.
Proof.
  intros [_ V] H1 H2. apply lookup_In, In_nth_error in H1 as (n1 & H1). apply lookup_In, In_nth_error in H2 as (n2 & H2).
  assert (E : forall n k, nth_error tags n = Some (k, v) -> n + 1 = v).
  { intros n k Q. assert (R : nth_error (map snd tags) n = Some v) by (rewrite nth_error_map, Q; reflexivity).
    rewrite V in R. assert (n < length tags) by (apply nth_error_Some; congruence).
    apply nth_error_nth with (d := 0) in R. rewrite seq_nth in R by assumption. lia. }
  apply E in H1 as E1. apply E in H2 as E2. assert (n1 = n2) by lia. congruence.
Qed.
Lemma tag_requests_spec ids : forall tags, tags_ok tags ->
  let (ts, tags') := tag_requests ids tags in
  tags_ok tags' /\ (forall k v, lookup k tags = Some v -> lookup k tags' = Some v)
  /\ length ts = length ids
  /\ (forall n b t, nth_error ids n = Some b -> nth_error ts n = Some t -> lookup b tags' = Some t)
  /\ (forall k v, lookup k tags' = Some v -> In k ids \/ lookup k tags = Some v).
Proof.
  induction ids as [|b ids IH]; intros tags T; cbn [tag_requests].
  - repeat split; auto; try apply T. intros [|n] ? ? Q; discriminate.
  - destruct (tag_from_tag_dict b tags) as [t tags1] eqn:E.
    destruct (tags_step _ _ _ _ T E) as (T1 & L1 & M1 & B1). specialize (IH tags1 T1).
    destruct (tag_requests ids tags1) as [ts tags2]. destruct IH as (T2 & M2 & Len & N & B2).
    split; [exact T2|]. split; [auto|]. split; [simpl; lia|]. split.
    + intros [|n] b' t' Q1 Q2; simpl in *; [injection Q1 as <-; injection Q2 as <-; auto|eauto].
    + intros k v Q. destruct (B2 k v Q) as [R|R]; [simpl; auto|]. destruct (B1 k v R) as [->|R']; simpl; auto.
Qed.

(** Two requests get the same tag exactly when they are for the same block, and
    with n blocks the tags are 1..n. *)
Theorem tags_unique_stable : forall ids,
  let ts := fst (tag_requests ids []) in
  length ts = length ids
  /\ (forall m n b1 b2 t1 t2, nth_error ids m = Some b1 -> nth_error ids n = Some b2 ->
       nth_error ts m = Some t1 -> nth_error ts n = Some t2 -> (t1 = t2 <-> b1 = b2))
  /\ (forall n, 1 <= n <= length (nodup string_dec ids) <-> In n ts).
Proof.
  intros ids. pose proof (tag_requests_spec ids [] ltac:(constructor; [constructor|reflexivity])) as H.
  destruct (tag_requests ids []) as [ts tags] eqn:E. destruct H as (T & _ & Len & N & B). cbn [fst].
  assert (D : forall n b, nth_error ids n = Some b -> exists t, nth_error ts n = Some t /\ lookup b tags = Some t).
  { intros n b Q. destruct (nth_error ts n) as [t|] eqn:R; [eauto|]. apply nth_error_None in R.
    assert (n < length ids) by (apply nth_error_Some; congruence). lia. }
  split; [exact Len|]. split.
  - intros m n b1 b2 t1 t2 H1 H2 Q1 Q2. pose proof (N _ _ _ H1 Q1) as L1. pose proof (N _ _ _ H2 Q2) as L2. split.
    + intros ->. eapply tags_inj; eauto.
    + intros ->. congruence.
  - assert (P : length tags = length (nodup string_dec ids)).
    { assert (I1 : incl (map fst tags) (nodup string_dec ids)).
      { intros k Hk. apply nodup_In. destruct (lookup k tags) as [v|] eqn:L; [|apply lookup_None in L; contradiction].
        destruct (B k v L) as [Q|Q]; [exact Q|discriminate]. }
      assert (I2 : incl (nodup string_dec ids) (map fst tags)).
      { intros k Hk. apply nodup_In, In_nth_error in Hk as (n & Hn). destruct (D n k Hn) as (t & _ & L).
        apply lookup_In in L. apply in_map_iff. exists (k, t). auto. }
      pose proof (NoDup_incl_length (tk_keys _ T) I1). pose proof (NoDup_incl_length (NoDup_nodup string_dec ids) I2).
      rewrite map_length in *. lia. }
    intros n. rewrite <- P. split.
    + intros R. assert (Q : In n (map snd tags)) by (rewrite (tk_vals _ T); apply in_seq; lia).
      apply in_map_iff in Q as ([k v] & <- & Q).
      assert (L : lookup k tags = Some v).
      { destruct (lookup k tags) as [v'|] eqn:L; [|apply lookup_None in L; exfalso; apply L, in_map_iff; exists (k, v); auto].
        apply lookup_In in L. pose proof (tk_keys _ T) as ND. clear - L Q ND. induction tags as [|[k0 v0] tags IH]; [destruct Q|].
        simpl in ND. apply NoDup_cons_iff in ND as [ND1 ND2]. simpl in L, Q.
        destruct L as [L|L]; destruct Q as [Q|Q]; try congruence.
        - injection L as -> ->. exfalso. apply ND1, in_map_iff. exists (k, v). auto.
        - injection Q as -> ->. exfalso. apply ND1, in_map_iff. exists (k, v'). auto.
        - auto. }
      destruct (B k v L) as [I|I]; [|discriminate]. apply In_nth_error in I as (m & Hm).
      destruct (D m k Hm) as (t & Ht & Lt). rewrite L in Lt. injection Lt as <-. eapply nth_error_In; eauto.
    + intros I. apply In_nth_error in I as (m & Hm). assert (m < length ids) by (rewrite <- Len; apply nth_error_Some; congruence).
      destruct (nth_error ids m) as [b|] eqn:Hb; [|apply nth_error_None in Hb; lia].
      pose proof (N _ _ _ Hb Hm) as L. apply lookup_In in L. assert (Q : In n (map snd tags)) by (apply in_map_iff; exists (b, n); auto).
      rewrite (tk_vals _ T) in Q. apply in_seq in Q. lia.
Qed.
Example tags_example : fst (tag_requests ["b"; "a"; "b"; "c"; "a"] []) = [1; 2; 1; 3; 2].
Proof. reflexivity. Qed.
Print Assumptions tags_unique_stable.

(* ------------------------------------------------------------------ *)
(** C34.  The text of an index reads back as the index. *)
Lemma uint_zeros n s u : HexadecimalString.NilEmpty.uint_of_string s = Some u -> s <> ""%string ->
  exists u', HexadecimalString.NilZero.uint_of_string (zeros n ++ s)%string = Some u' /\ N.of_hex_uint u' = N.of_hex_uint u.
Proof.
  intros H N. assert (G : exists u', HexadecimalString.NilEmpty.uint_of_string (zeros n ++ s)%string = Some u' /\ N.of_hex_uint u' = N.of_hex_uint u).
  { induction n as [|n (u' & E & Q)]; [exists u; auto|]. exists (Hexadecimal.D0 u'). split; [|exact Q].
    simpl. rewrite E. reflexivity. }
  destruct G as (u' & E & Q). exists u'. split; [|exact Q]. unfold HexadecimalString.NilZero.uint_of_string.
  destruct (zeros n ++ s)%string eqn:Z; [|exact E]. destruct n; [contradiction|discriminate].
Qed.
Lemma lower_zeros n s : lower_hex (zeros n ++ s)%string = (zeros n ++ lower_hex s)%string.
Proof. induction n; simpl; [reflexivity|]. now rewrite IHn. Qed.
Lemma fmt_reads z : (0 <= z)%Z -> hex_value (fmt_064X z) = Some z.
Proof.
  intros H. pose proof (hex_value_drop2 z H) as R. unfold fmt_064X, hex_value in *. rewrite lower_zeros.
  set (t := lower_hex (upper (hex_drop2 z))) in *.
  destruct (HexadecimalString.NilZero.uint_of_string t) as [u|] eqn:E; [|discriminate].
  destruct t as [|c t'] eqn:T; [discriminate E|]. unfold HexadecimalString.NilZero.uint_of_string in E.
  edestruct (uint_zeros (64 - String.length (upper (hex_drop2 z))) _ u E) as (u' & E' & Q); [discriminate|].
  rewrite E'. cbn [option_map] in *. rewrite Q. exact R.
Qed.
Lemma fmt_inj z z' : (0 <= z)%Z -> (0 <= z')%Z -> fmt_064X z = fmt_064X z' -> z = z'.
Proof. intros H H' E. pose proof (fmt_reads z H) as R. rewrite E, fmt_reads in R by exact H'. congruence. Qed.

Definition regular_name (subobjects : list (string * nat)) (lit : string) : Prop :=
  lookup lit subobjects <> None \/ find_dot lit <> Some 1.
Definition name_index (subobjects : list (string * nat)) (ind : list (string * nat)) (lit : string) : option Z :=
  match lookup lit subobjects with
  | Some pos => Some (Z.of_nat pos)
  | None => option_map (fun p => (2 ^ 64 - 1 - Z.of_nat p)%Z) (lookup lit ind)
  end.
(** the numbering built so far *)
Record ind_ok (st : idx_state) : Prop := {
  ik_len : fst st = length (snd st);
  ik_vals : map snd (snd st) = seq 0 (length (snd st));
  ik_keys : NoDup (map fst (snd st))
}.
Lemma object_index_step sub st lit z st' : ind_ok st -> regular_name sub lit -> object_index sub st lit = (z, st') ->
  ind_ok st' /\ name_index sub (snd st') lit = Some z
  /\ (forall k v, lookup k (snd st) = Some v -> lookup k (snd st') = Some v) /\ fst st' <= S (fst st).
Proof.
  intros I R H. unfold object_index in H. unfold name_index. destruct (lookup lit sub) as [pos|] eqn:L.
  { injection H as <- <-. auto. }
  destruct st as [next ind]. destruct R as [R|R]; [contradiction|]. cbn [fst snd].
  assert (H' : match lookup lit ind with
          | Some pos => ((2 ^ 64 - 1 - Z.of_nat pos)%Z, (next, ind))
          | None => ((2 ^ 64 - 1 - Z.of_nat next)%Z, (S next, ind ++ [(lit, next)]))
          end = (z, st')) by (destruct (find_dot lit) as [[|[|n]]|]; [exact H|contradiction|exact H|exact H]).
  clear H. destruct (lookup lit ind) as [pos|] eqn:Li; apply pair_equal_spec in H' as [Hz Hs]; subst st'; cbn [fst snd].
  - rewrite Li. split; [exact I|]. split; [cbn [option_map]; rewrite Hz; reflexivity|]. split; [trivial|lia].
  - destruct I as [I1 I2 I3]. cbn [fst snd] in *. split; [constructor; cbn [fst snd]|].
    + rewrite app_length. simpl. lia.
    + rewrite map_app, I2, app_length, seq_app. simpl. rewrite I1. reflexivity.
    + rewrite map_app. simpl. apply lookup_None in Li. apply NoDup_Add with (a := lit) (l := map fst ind); [|auto].
      rewrite <- (app_nil_r (map fst ind)) at 1. apply Add_app.
    + split; [rewrite lookup_app, Li; cbn [lookup]; rewrite String.eqb_refl; cbn [option_map]; rewrite Hz; reflexivity|]. split; [|lia].
      intros k v Q. rewrite lookup_app, Q. reflexivity.
Qed.
Lemma translate_refs_spec sub oid refs : forall st, ind_ok st -> (forall b n, In (b, n) refs -> regular_name sub n) ->
  exists ind, ind_ok ind /\ (forall k v, lookup k (snd st) = Some v -> lookup k (snd ind) = Some v)
   /\ fst ind <= length refs + fst st
   /\ length (translate_refs sub oid st refs) = length refs
   /\ forall m b n r, nth_error refs m = Some (b, n) -> nth_error (translate_refs sub oid st refs) m = Some r ->
      exists z, snd r = fmt_064X z /\ name_index sub (snd ind) n = Some z.
Proof.
  induction refs as [|[sz lit] refs IH]; intros st I R; cbn [translate_refs].
  - exists st. split; [exact I|]. split; [auto|]. split; [simpl; lia|]. split; [reflexivity|]. intros [|m] ? ? ? Q; discriminate.
  - assert (S1 : exists z st' op, (if sz then translate_datasize sub oid st lit else translate_dataoffset sub st lit) = ((op, fmt_064X z), st')
                 /\ object_index sub st lit = (z, st')).
    { unfold translate_datasize, translate_dataoffset. destruct (object_index sub st lit) as [z st']. exists z, st'.
      destruct sz; eexists; (split; [reflexivity|reflexivity]). }
    destruct S1 as (z & st' & op & E & O). rewrite E.
    destruct (object_index_step _ _ _ _ _ I (R sz lit (or_introl eq_refl)) O) as (I' & Nz & M & Lf).
    destruct (IH st' I') as (ind & Ii & Mi & Li & Len & K); [intros b n Q; apply (R b n); right; exact Q|].
    exists ind. split; [exact Ii|]. split; [auto|]. split; [simpl; lia|]. split; [simpl; now rewrite Len|].
    intros [|m] b n r Q1 Q2; simpl in Q1, Q2; [|eauto]. injection Q1 as -> ->. injection Q2 as <-.
    exists z. split; [reflexivity|]. unfold name_index in *. destruct (lookup n sub); [exact Nz|].
    destruct (lookup n (snd st')) as [p|] eqn:Lp; [|discriminate]. rewrite (Mi _ _ Lp). exact Nz.
Qed.
Lemma ind_inj ind k1 k2 v : ind_ok ind -> lookup k1 (snd ind) = Some v -> lookup k2 (snd ind) = Some v -> k1 = k2.
Proof.
  intros [_ V _] H1 H2. apply lookup_In, In_nth_error in H1 as (n1 & H1). apply lookup_In, In_nth_error in H2 as (n2 & H2).
  assert (E : forall n k, nth_error (snd ind) n = Some (k, v) -> n = v).
  { intros n k Q. assert (R : nth_error (map snd (snd ind)) n = Some v) by (rewrite nth_error_map, Q; reflexivity).
    rewrite V in R. assert (n < length (snd ind)) by (apply nth_error_Some; congruence).
    apply nth_error_nth with (d := 0) in R. rewrite seq_nth in R by assumption. lia. }
  apply E in H1 as E1. apply E in H2 as E2. assert (n1 = n2) by lia. congruence.
Qed.
Lemma ind_bound ind k v : ind_ok ind -> lookup k (snd ind) = Some v -> v < fst ind.
Proof.
  intros [L V _] H. apply lookup_In in H. assert (Q : In v (map snd (snd ind))) by (apply in_map_iff; exists (k, v); auto).
  rewrite V in Q. apply in_seq in Q. lia.
Qed.

(** Within one block list (the main code of an object, or one function): two
    references get the same index text exactly when they name the same object. *)
Theorem object_indices_injective_partial : forall subobjects object_id refs,
  NoDup (map fst subobjects) -> NoDup (map snd subobjects) ->
  (forall k p, In (k, p) subobjects -> Z.of_nat p < 2 ^ 63)%Z -> (Z.of_nat (length refs) < 2 ^ 63)%Z ->
  (forall b n, In (b, n) refs -> regular_name subobjects n) ->
  let out := translate_block_list subobjects object_id refs in
  length out = length refs /\
  forall m1 m2 b1 b2 n1 n2 r1 r2,
    nth_error refs m1 = Some (b1, n1) -> nth_error refs m2 = Some (b2, n2) ->
    nth_error out m1 = Some r1 -> nth_error out m2 = Some r2 -> (snd r1 = snd r2 <-> n1 = n2).
Proof.
  intros sub oid refs K V B L R. unfold translate_block_list.
  destruct (translate_refs_spec sub oid refs (0, [])) as (ind & I & _ & Lf & Len & N); [constructor; [reflexivity|reflexivity|constructor]|exact R|].
  split; [exact Len|]. intros m1 m2 b1 b2 n1 n2 r1 r2 H1 H2 Q1 Q2.
  destruct (N _ _ _ _ H1 Q1) as (z1 & T1 & Z1). destruct (N _ _ _ _ H2 Q2) as (z2 & T2 & Z2).
  split; [|intros ->; congruence]. intros E. rewrite T1, T2 in E.
  assert (P : forall n z, name_index sub (snd ind) n = Some z ->
     (exists p, lookup n sub = Some p /\ z = Z.of_nat p /\ (z < 2 ^ 63)%Z)
     \/ (exists p, lookup n sub = None /\ lookup n (snd ind) = Some p /\ z = (2 ^ 64 - 1 - Z.of_nat p)%Z /\ (2 ^ 63 <= z)%Z)).
  { intros n z Q. unfold name_index in Q. destruct (lookup n sub) as [p|] eqn:Ls.
    - left. exists p. injection Q as <-. repeat split; auto. eapply B. apply lookup_In. exact Ls.
    - right. destruct (lookup n (snd ind)) as [p|] eqn:Li; [|discriminate]. exists p. cbn [option_map] in Q.
      assert (Hz : (2 ^ 64 - 1 - Z.of_nat p)%Z = z) by congruence. clear Q.
      split; [reflexivity|]. split; [reflexivity|]. split; [symmetry; exact Hz|].
      pose proof (ind_bound _ _ _ I Li). cbn [fst snd] in *.
      assert (p < length refs) by lia. assert (2 ^ 64 = 2 * 2 ^ 63)%Z by reflexivity. lia. }
  destruct (P _ _ Z1) as [(p1 & A1 & A2 & A3)|(p1 & A1 & A2 & A3 & A4)];
  destruct (P _ _ Z2) as [(p2 & C1 & C2 & C3)|(p2 & C1 & C2 & C3 & C4)].
  - apply fmt_inj in E; [|lia|lia]. assert (p1 = p2) by lia. subst p2.
    apply lookup_In in A1, C1. clear - A1 C1 V. induction sub as [|[k v] sub IH]; [destruct A1|].
    simpl in V. apply NoDup_cons_iff in V as [V1 V2]. simpl in A1, C1.
    destruct A1 as [A1|A1]; destruct C1 as [C1|C1].
    + congruence.
    + injection A1 as -> ->. exfalso. apply V1, in_map_iff. exists (n2, p1). auto.
    + injection C1 as -> ->. exfalso. apply V1, in_map_iff. exists (n1, p1). auto.
    + auto.
  - apply fmt_inj in E; lia.
  - apply fmt_inj in E; lia.
  - apply fmt_inj in E; [|lia|lia]. assert (p1 = p2) by lia. subst p2. eapply ind_inj; eauto.
Qed.

(** The numbering restarts for every function of an object: two functions that
    refer to different objects both get the first indirect index. *)
Theorem object_indices_across_functions_refuted : exists subobjects object_id n1 n2,
  n1 <> n2 /\ regular_name subobjects n1 /\ regular_name subobjects n2 /\
  translate_block_list subobjects object_id [(true, n1)] = translate_block_list subobjects object_id [(true, n2)].
Proof.
  exists [("Token", 0)], "Main", "Token.Vault", "Token.Pool". split; [discriminate|].
  split; [right; discriminate|]. split; [right; discriminate|]. vm_compute. reflexivity.
Qed.

(** A dot right after the first letter gives index 0, the index of the first
    sub-object. *)
Theorem object_index_dot_refuted : exists subobjects n1 n2, n1 <> n2 /\ In (n1, 0) subobjects /\
  fst (translate_dataoffset subobjects (0, []) n1) = fst (translate_dataoffset subobjects (0, []) n2).
Proof. exists [("A", 0)], "A", "A.B". split; [discriminate|]. split; [left; reflexivity|]. vm_compute. reflexivity. Qed.

Example object_indices_example :
  map snd (translate_block_list [("Tok", 0); ("Vault", 1)] "Main" [(true, "Vault"); (false, "Tok.X"); (true, "Tok.X"); (true, "Tok.Y")])
  = map fmt_064X [1; 2 ^ 64 - 1; 2 ^ 64 - 1; 2 ^ 64 - 2]%Z.
Proof. vm_compute. reflexivity. Qed.
Print Assumptions object_indices_injective_partial.
Print Assumptions object_indices_across_functions_refuted.
Print Assumptions object_index_dot_refuted.
