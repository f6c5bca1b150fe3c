(** Lemmas on identifiers and numerals. *)
From Coq Require HexadecimalString HexadecimalN DecimalPos.
From Verif Require Import Base Lexical SymExecModel AsmModel MachineSpec.

Lemma py_digits_chars l : forall acc b z, py_digits l acc b = Some z ->
  forall c, In c l -> digit_of c <> None \/ c = "_"%char.
Proof.
  induction l as [|d l IH]; simpl; intros acc b z H c Hc; [tauto|].
  destruct (digit_of d) as [v|] eqn:D.
  - destruct Hc as [<-|Hc]; [left; congruence | eauto].
  - destruct (Ascii.eqb_spec d "_"%char) as [->|N]; simpl in H; [|discriminate].
    destruct b; [|discriminate].
    destruct Hc as [<-|Hc]; [right; auto | eauto].
Qed.

Lemma In_lstrip c l : In c l -> is_space c = true \/ In c (lstrip l).
Proof.
  induction l as [|d l IH]; simpl; [tauto|].
  destruct (is_space d) eqn:D; [intros [<-|H]; auto | intros H; right; exact H].
Qed.

Lemma In_strip c l : In c l -> is_space c = true \/ In c (strip l).
Proof.
  intros H. unfold strip. destruct (In_lstrip c l H) as [S|H1]; auto.
  apply in_rev in H1. destruct (In_lstrip c _ H1) as [S|H2]; auto.
  right. rewrite <- in_rev. exact H2.
Qed.

(** A capital P never occurs in a numeral. *)
Lemma py_int_no_P s z : py_int s = Some z -> ~ In "P"%char (list_ascii_of_string s).
Proof.
  unfold py_int. intros H HP.
  destruct (In_strip _ _ HP) as [S|HS]; [discriminate S|].
  destruct (strip (list_ascii_of_string s)) as [|c l]; [destruct HS|].
  destruct (Ascii.eqb_spec c "-"%char) as [->|N1].
  - destruct HS as [E|HS]; [discriminate E|].
    destruct (py_digits l 0 false) eqn:D; [|discriminate].
    destruct (py_digits_chars _ _ _ _ D _ HS) as [Q|Q]; [apply Q; reflexivity | discriminate].
  - destruct (Ascii.eqb_spec c "+"%char) as [->|N2].
    + destruct HS as [E|HS]; [discriminate E|].
      destruct (py_digits_chars _ _ _ _ H _ HS) as [Q|Q]; [apply Q; reflexivity | discriminate].
    + destruct (py_digits_chars _ _ _ _ H _ HS) as [Q|Q]; [apply Q; reflexivity | discriminate].
Qed.

Lemma In_sdrop_S c n s :
  In c (list_ascii_of_string (sdrop (S n) s)) -> In c (list_ascii_of_string (sdrop n s)).
Proof.
  revert s; induction n as [|n IH]; intros [|d s]; simpl; auto.
Qed.

Lemma contains_swap_P s : contains "SWAP" s = true ->
  In "P"%char (list_ascii_of_string (sdrop 3 s)).
Proof.
  induction s as [|c s IH]; [discriminate|].
  cbn [contains]. rewrite orb_true_iff. intros [H|H].
  - cbn [prefix] in H. destruct (ascii_dec "S" c); [subst|discriminate].
    destruct s as [|c1 s]; [discriminate|]. cbn [prefix] in H. destruct (ascii_dec "W" c1); [subst|discriminate].
    destruct s as [|c2 s]; [discriminate|]. cbn [prefix] in H. destruct (ascii_dec "A" c2); [subst|discriminate].
    destruct s as [|c3 s]; [discriminate|]. cbn [prefix] in H. destruct (ascii_dec "P" c3); [subst|discriminate].
    simpl; auto.
  - change (sdrop 3 (String c s)) with (sdrop 2 s). apply In_sdrop_S. auto.
Qed.

Lemma contains_dup_P s : contains "DUP" s = true ->
  In "P"%char (list_ascii_of_string (sdrop 2 s)).
Proof.
  induction s as [|c s IH]; [discriminate|].
  cbn [contains]. rewrite orb_true_iff. intros [H|H].
  - cbn [prefix] in H. destruct (ascii_dec "D" c); [subst|discriminate].
    destruct s as [|c1 s]; [discriminate|]. cbn [prefix] in H. destruct (ascii_dec "U" c1); [subst|discriminate].
    destruct s as [|c2 s]; [discriminate|]. cbn [prefix] in H. destruct (ascii_dec "P" c2); [subst|discriminate].
    simpl; auto.
  - change (sdrop 2 (String c s)) with (sdrop 1 s). apply In_sdrop_S. auto.
Qed.

(** The validator's substring test is a prefix test on the ids it accepts. *)
Lemma swap_prefix s z : contains "SWAP" s = true -> py_int (sdrop 4 s) = Some z ->
  startswith "SWAP" s = true.
Proof.
  destruct s as [|c s]; [discriminate|]. unfold startswith.
  cbn [contains]. rewrite orb_true_iff. intros [H|H] Hz; auto.
  exfalso. apply (py_int_no_P _ _ Hz). apply (contains_swap_P s H).
Qed.

Lemma dup_prefix s z : contains "DUP" s = true -> py_int (sdrop 3 s) = Some z ->
  startswith "DUP" s = true.
Proof.
  destruct s as [|c s]; [discriminate|]. unfold startswith.
  cbn [contains]. rewrite orb_true_iff. intros [H|H] Hz; auto.
  exfalso. apply (py_int_no_P _ _ Hz). apply (contains_dup_P s H).
Qed.

Lemma startswith_contains p s : startswith p s = true -> contains p s = true.
Proof.
  unfold startswith. destruct s as [|c s]; cbn [contains]; intros H; rewrite H; reflexivity.
Qed.

Lemma startswith_app p s : startswith p (p ++ s) = true.
Proof.
  unfold startswith. induction p as [|c p IH]; [destruct s; reflexivity|].
  cbn [prefix append]. destruct (ascii_dec c c); [exact IH | congruence].
Qed.

Lemma sdrop_app p s : sdrop (String.length p) (p ++ s) = s.
Proof. induction p as [|c p IH]; simpl; auto. Qed.

Lemma paren_arg_prefix p s x : paren_arg p s = Some x -> prefix p s = true.
Proof. unfold paren_arg. destruct (prefix p s); [auto | discriminate]. Qed.

Lemma before_last_paren_spec l :
  ~ In "010"%char l -> before_last_paren (l ++ [")"%char]) = Some l.
Proof.
  induction l as [|c l IH]; simpl; intros H; [reflexivity|].
  destruct (Ascii.eqb_spec c "010"%char) as [->|N]; [exfalso; auto|].
  rewrite IH by auto. reflexivity.
Qed.

Lemma list_ascii_app a b :
  list_ascii_of_string (a ++ b) = list_ascii_of_string a ++ list_ascii_of_string b.
Proof. induction a as [|c a IH]; simpl; auto. rewrite IH; auto. Qed.

Lemma paren_arg_app p x : ~ In "010"%char (list_ascii_of_string x) ->
  paren_arg p (p ++ (x ++ ")")) = Some x.
Proof.
  intros H. unfold paren_arg.
  pose proof (startswith_app p (x ++ ")")) as E. unfold startswith in E. rewrite E.
  rewrite sdrop_app, list_ascii_app.
  change (list_ascii_of_string ")") with [")"%char].
  rewrite before_last_paren_spec by auto. simpl.
  rewrite string_of_list_ascii_of_string. reflexivity.
Qed.

(** Hexadecimal immediates are read back exactly. *)
Lemma upper_lower_hex u :
  lower_hex (upper (HexadecimalString.NilEmpty.string_of_uint u))
  = HexadecimalString.NilEmpty.string_of_uint u.
Proof. induction u; simpl; try rewrite IHu; reflexivity. Qed.

Lemma upper_lower_hex0 u :
  lower_hex (upper (HexadecimalString.NilZero.string_of_uint u))
  = HexadecimalString.NilZero.string_of_uint u.
Proof. destruct u; [reflexivity|..]; apply upper_lower_hex. Qed.

Lemma to_hex_uint_nonnil n : N.to_hex_uint n <> Hexadecimal.Nil.
Proof.
  intros E. pose proof (HexadecimalN.Unsigned.of_to n) as R. rewrite E in R.
  simpl in R. subst n. discriminate E.
Qed.

Lemma hex_value_drop2 z : (0 <= z)%Z -> hex_value (upper (hex_drop2 z)) = Some z.
Proof.
  intros Hz. unfold hex_value, hex_drop2.
  destruct z as [|p|p]; [reflexivity | | lia].
  rewrite upper_lower_hex0.
  rewrite HexadecimalString.NilZero.usu by apply to_hex_uint_nonnil.
  cbv beta iota delta [option_map]. rewrite HexadecimalN.Unsigned.of_to. reflexivity.
Qed.

(** Decimal immediates are read back exactly. *)
Lemma upper_str_uint u :
  upper (DecimalString.NilEmpty.string_of_uint u) = DecimalString.NilEmpty.string_of_uint u.
Proof. induction u; simpl; try rewrite IHu; reflexivity. Qed.

Lemma digits_of_uint_pos d acc b :
  py_digits (list_ascii_of_string (DecimalString.NilEmpty.string_of_uint d)) (Zpos acc) b
  = match d with Decimal.Nil => if b then Some (Zpos acc) else None
            | _ => Some (Zpos (Pos.of_uint_acc d acc)) end.
Proof.
  revert acc b.
  induction d as [|d IH|d IH|d IH|d IH|d IH|d IH|d IH|d IH|d IH|d IH]; intros acc b;
    [reflexivity|..];
    cbn [DecimalString.NilEmpty.string_of_uint list_ascii_of_string py_digits];
    match goal with |- context [digit_of ?c] =>
      let v := eval compute in (digit_of c) in change (digit_of c) with v end;
    cbn [Pos.of_uint_acc];
    match goal with |- py_digits _ ?z true = Some (Zpos (Pos.of_uint_acc d ?n)) =>
      replace z with (Zpos n) by lia end; rewrite IH; destruct d; reflexivity.
Qed.

Lemma digits_of_uint_N d b :
  py_digits (list_ascii_of_string (DecimalString.NilEmpty.string_of_uint d)) 0 b
  = match d with Decimal.Nil => if b then Some 0%Z else None
            | _ => Some (Z.of_N (Pos.of_uint d)) end.
Proof.
  revert b.
  induction d as [|d IH|d IH|d IH|d IH|d IH|d IH|d IH|d IH|d IH|d IH]; intros b;
    [reflexivity|..];
    cbn [DecimalString.NilEmpty.string_of_uint list_ascii_of_string py_digits];
    match goal with |- context [digit_of ?c] =>
      let v := eval compute in (digit_of c) in change (digit_of c) with v end;
    cbn [Pos.of_uint Z.of_N].
  { change (0 * 10 + 0)%Z with 0%Z. rewrite IH. destruct d; reflexivity. }
  all: match goal with |- py_digits _ ?z true = Some (Zpos (Pos.of_uint_acc ?u ?n)) =>
      change z with (Zpos n); rewrite digits_of_uint_pos; destruct u; reflexivity end.
Qed.

Lemma py_int_uint d : d <> Decimal.Nil ->
  py_int (DecimalString.NilZero.string_of_uint d) = Some (Z.of_N (Pos.of_uint d)).
Proof.
  intros Hd. unfold py_int.
  rewrite strip_nospace by apply uint_string_nospace.
  destruct (uint_string_shape d) as (c & s & E & _ & E1 & E2).
  rewrite E. cbn [list_ascii_of_string]. rewrite E1, E2.
  change (c :: list_ascii_of_string s) with (list_ascii_of_string (String c s)). rewrite <- E.
  pose proof (digits_of_uint_N d false) as H.
  destruct d; [congruence|..]; exact H.
Qed.

Lemma to_uint_nonnil p : Pos.to_uint p <> Decimal.Nil.
Proof.
  intros E. pose proof (DecimalPos.Unsigned.of_to p) as R. rewrite E in R. discriminate R.
Qed.

Lemma py_int_str_Z z : (0 <= z)%Z -> py_int (upper (str_Z z)) = Some z.
Proof.
  intros Hz. unfold str_Z. destruct z as [|p|p]; [reflexivity| |lia].
  cbn [Z.to_int DecimalString.NilZero.string_of_int].
  assert (U : forall d, upper (DecimalString.NilZero.string_of_uint d) = DecimalString.NilZero.string_of_uint d)
    by (intros []; [reflexivity|..]; apply upper_str_uint).
  rewrite U, py_int_uint by apply to_uint_nonnil.
  rewrite DecimalPos.Unsigned.of_to. reflexivity.
Qed.

