(** Proofs about the translation of opcodes into assembly (C57). *)
From Verif Require Import Base Lexical LexicalProofs SymExecModel AsmModel MachineSpec ProgSem ImportModel ImportSpec.
From Verif Require PermutProps.
Open Scope string_scope. Open Scope list_scope. Open Scope Z_scope.

Lemma lower_hex_uint u : lower_hex (HexadecimalString.NilEmpty.string_of_uint u) = HexadecimalString.NilEmpty.string_of_uint u.
Proof. induction u; simpl; try rewrite IHu; reflexivity. Qed.
Lemma hex_value_drop2' z : 0 <= z -> hex_value (hex_drop2 z) = Some z.
Proof.
  intros Hz. unfold hex_value, hex_drop2. destruct z as [|p|p]; [reflexivity| |lia].
  assert (Q : forall u, lower_hex (HexadecimalString.NilZero.string_of_uint u) = HexadecimalString.NilZero.string_of_uint u)
    by (intros u; destruct u; [reflexivity|..]; apply lower_hex_uint).
  rewrite Q, HexadecimalString.NilZero.usu by apply to_hex_uint_nonnil.
  cbv beta iota delta [option_map]. rewrite HexadecimalN.Unsigned.of_to. reflexivity.
Qed.
Lemma hex_value_nonneg t v : hex_value t = Some v -> 0 <= v.
Proof. unfold hex_value. destruct (HexadecimalString.NilZero.uint_of_string _); cbn; [|discriminate]. intros [= <-]. lia. Qed.
Lemma py_int16_listed t : py_int16 ("0x" ++ t)%string = hex_value t.
Proof. unfold py_int16. rewrite startswith_app. cbn [orb]. change (sdrop 2 ("0x" ++ t)) with t. reflexivity. Qed.
Lemma push_word n : (1 <= n)%nat -> takes_operand ("PUSH" ++ str_nat n)%string = true /\ py_int (sdrop 4 ("PUSH" ++ str_nat n)%string) = Some (Z.of_nat n).
Proof.
  intros H. change (sdrop 4 ("PUSH" ++ str_nat n)) with (str_nat n). rewrite py_int_str_nat. split; [|reflexivity].
  unfold takes_operand. rewrite startswith_app. cbn [andb]. apply negb_true_iff. apply String.eqb_neq. intros E.
  assert (Q : str_nat n = str_nat 0) by (change (str_nat 0) with "0"; injection E; auto). apply str_nat_inj in Q. lia.
Qed.
Lemma op_word name : proper_name name -> takes_operand name = false /\ startswith "JUMPDEST" name = is_dest (OOp name).
Proof.
  intros (P & J & _). split.
  - unfold takes_operand. destruct (startswith "PUSH" name) eqn:E; [|reflexivity]. rewrite (P eq_refl). reflexivity.
  - cbn. destruct (startswith "JUMPDEST" name) eqn:E.
    + rewrite (J eq_refl). reflexivity.
    + symmetry. apply String.eqb_neq. intros ->. discriminate.
Qed.

(** ** The two passes *)
Fixpoint numbered (ds : list Z) (t : Z) : list (Z * Z) := match ds with [] => [] | a :: ds' => (a, t) :: numbered ds' (t + 1) end.
Lemma first_pass_ok code words : listing code words -> forall pc t d, first_pass words pc t d = Ok (d ++ numbered (destinations code pc) t).
Proof.
  induction 1 as [|n v text code words Hn Hv L IH|name code words Pn L IH]; intros pc t d.
  - cbn. rewrite app_nil_r. reflexivity.
  - destruct (push_word n Hn) as [E1 E2]. cbn [first_pass]. rewrite E1, E2. cbn [of_option bind destinations is_dest size app].
    rewrite IH. rewrite Z.add_assoc. reflexivity.
  - destruct (op_word name Pn) as [E1 E2]. cbn [first_pass]. rewrite E1, E2. cbn [destinations size].
    destruct (is_dest (OOp name)); rewrite IH; cbn [app numbered]; [rewrite <- app_assoc|]; reflexivity.
Qed.
Lemma size_pos o : 1 <= size o. Proof. destruct o; cbn; lia. Qed.
Lemma bytes_nonneg code : 0 <= bytes code. Proof. induction code as [|o c IH]; cbn; [lia|]. pose proof (size_pos o). unfold bytes in IH. lia. Qed.
Lemma bytes_app a b : bytes (a ++ b) = bytes a + bytes b.
Proof. induction a as [|o a IH]; cbn; [reflexivity|]. unfold bytes in *. rewrite IH. lia. Qed.
Lemma destinations_app a b pc : destinations (a ++ b) pc = destinations a pc ++ destinations b (pc + bytes a).
Proof. revert pc. induction a as [|o a IH]; intros pc; cbn; [rewrite Z.add_0_r; reflexivity|]. rewrite IH, <- app_assoc. unfold bytes. rewrite Z.add_assoc. reflexivity. Qed.
Lemma destinations_from code pc d : In d (destinations code pc) -> pc <= d.
Proof.
  revert pc. induction code as [|o code IH]; intros pc; cbn; [intros []|]. rewrite in_app_iff. intros [H|H].
  - destruct (is_dest o); [destruct H as [<-|[]]; lia|destruct H].
  - apply IH in H. pose proof (size_pos o). lia.
Qed.
Lemma destinations_nodup code pc : NoDup (destinations code pc).
Proof.
  revert pc. induction code as [|o code IH]; intros pc; cbn; [constructor|]. destruct (is_dest o); [|apply IH]. cbn. constructor; [|apply IH].
  intros H. apply destinations_from in H. pose proof (size_pos o). lia.
Qed.
Lemma tag_of_address_ge ds : forall k a t, tag_of_address ds k a = Some t -> k <= t.
Proof. induction ds as [|d ds IH]; intros k a t; cbn; [discriminate|]. destruct (d =? a); [intros [= <-]; lia|]. intros H. apply IH in H. lia. Qed.
Lemma tag_of_address_none ds : forall k a, tag_of_address ds k a = None <-> ~ In a ds.
Proof.
  induction ds as [|d ds IH]; intros k a; cbn; [tauto|]. destruct (Z.eqb_spec d a) as [-> |N]; [split; [discriminate|intros H; exfalso; tauto]|].
  rewrite IH. tauto.
Qed.
Lemma tag_of_address_app ds es : forall k a, ~ In a ds -> tag_of_address (ds ++ es) k a = tag_of_address es (k + Z.of_nat (length ds)) a.
Proof.
  induction ds as [|d ds IH]; intros k a H; cbn [app tag_of_address length]; [f_equal; lia|]. destruct (Z.eqb_spec d a) as [-> |N]; [exfalso; apply H; left; reflexivity|].
  rewrite IH by (intros Q; apply H; right; exact Q). f_equal. lia.
Qed.
Lemma tag_of_address_nth ds : forall k a t, tag_of_address ds k a = Some t -> nth_error ds (Z.to_nat (t - k)) = Some a.
Proof.
  induction ds as [|d ds IH]; intros k a t; cbn [tag_of_address]; [discriminate|]. destruct (Z.eqb_spec d a) as [-> |N].
  - intros [= <-]. rewrite Z.sub_diag. reflexivity.
  - intros H. pose proof (tag_of_address_ge _ _ _ _ H). apply IH in H. replace (Z.to_nat (t - k)) with (S (Z.to_nat (t - (k + 1)))) by lia. exact H.
Qed.
Lemma dest_get_numbered ds : NoDup ds -> forall t a, dest_get (numbered ds t) a = tag_of_address ds t a.
Proof.
  induction 1 as [|d ds N _ IH]; intros t a; [reflexivity|]. cbn [numbered dest_get tag_of_address]. rewrite IH. destruct (Z.eqb_spec d a) as [-> |E].
  - rewrite (proj2 (tag_of_address_none ds (t + 1) a) N). reflexivity.
  - destruct (tag_of_address ds (t + 1) a); reflexivity.
Qed.

(** What the second pass adds for an operation at address [a]. *)
Definition items (ds : list Z) (a : Z) (o : opcode) : list asm :=
  match o with
  | OPush _ v => [match tag_of_address ds 0 v with Some t => build_assembly_instruction "PUSH [tag]" (Some t) | None => build_assembly_instruction "PUSH" (Some v) end]
  | OOp name => if is_dest o then [build_assembly_instruction "tag" (tag_of_address ds 0 a); build_assembly_instruction "JUMPDEST" None]
                else [build_assembly_instruction name None]
  end.
Fixpoint translate (ds : list Z) (code : list opcode) (a : Z) : list asm :=
  match code with [] => [] | o :: code' => items ds a o ++ translate ds code' (a + size o) end.
Lemma translate_app ds a b pc : translate ds (a ++ b) pc = translate ds a pc ++ translate ds b (pc + bytes a).
Proof. revert pc. induction a as [|o a IH]; intros pc; cbn; [rewrite Z.add_0_r; reflexivity|]. rewrite IH, <- app_assoc. unfold bytes. rewrite Z.add_assoc. reflexivity. Qed.
Lemma dest_number pre o rest : is_dest o = true ->
  tag_of_address (destinations (pre ++ o :: rest) 0) 0 (bytes pre) = Some (Z.of_nat (length (destinations pre 0))).
Proof.
  intros D. rewrite destinations_app, tag_of_address_app.
  - cbn [destinations]. rewrite D. cbn [app tag_of_address]. rewrite Z.add_0_l, Z.eqb_refl. f_equal; lia.
  - intros H. enough (forall c pc d, In d (destinations c pc) -> d < pc + bytes c) as Q by (apply Q in H; lia). clear.
    induction c as [|o c IH]; intros pc d; cbn; [intros []|]. rewrite in_app_iff. pose proof (size_pos o). pose proof (bytes_nonneg c). unfold bytes in *. intros [H1|H1].
    + destruct (is_dest o); [destruct H1 as [<-|[]]; lia|destruct H1].
    + apply IH in H1. lia.
Qed.
Lemma second_pass_ok code words : listing code words -> forall whole pre acc, whole = pre ++ code ->
  second_pass (numbered (destinations whole 0) 0) words (bytes pre) acc = Ok (acc ++ translate (destinations whole 0) code (bytes pre)).
Proof.
  induction 1 as [|n v text code words Hn Hv L IH|name code words Pn L IH]; intros whole pre acc Ew.
  - cbn. rewrite app_nil_r. reflexivity.
  - destruct (push_word n Hn) as [E1 E2]. cbn [second_pass]. rewrite E1, E2. cbn [of_option bind]. rewrite py_int16_listed, Hv. cbn [of_option bind].
    rewrite dest_get_numbered by apply destinations_nodup.
    replace (bytes pre + Z.of_nat n + 1) with (bytes (pre ++ [OPush n v])) by (rewrite bytes_app; cbn; lia).
    rewrite (IH whole (pre ++ [OPush n v])) by (rewrite <- app_assoc; exact Ew). cbn [translate items]. rewrite <- app_assoc.
    rewrite bytes_app. cbn [bytes fold_right size]. rewrite Z.add_0_r. reflexivity.
  - destruct (op_word name Pn) as [E1 E2]. cbn [second_pass]. rewrite E1, E2. cbn [translate items].
    assert (Q : bytes pre + 1 = bytes (pre ++ [OOp name])) by (rewrite bytes_app; cbn; lia).
    destruct (is_dest (OOp name)) eqn:D.
    + pose proof (dest_number pre (OOp name) code D) as DN. rewrite <- Ew in DN.
      rewrite dest_get_numbered by apply destinations_nodup. rewrite DN. cbn [of_option bind].
      rewrite Q, (IH whole (pre ++ [OOp name])) by (rewrite <- app_assoc; exact Ew). rewrite <- app_assoc.
      cbn [size]. rewrite Q. reflexivity.
    + rewrite Q, (IH whole (pre ++ [OOp name])) by (rewrite <- app_assoc; exact Ew). rewrite <- app_assoc. cbn [size]. rewrite Q. reflexivity.
Qed.
Lemma bytecode2asm_ok code words : listing code words -> bytecode2asm words = Ok (translate (destinations code 0) code 0).
Proof.
  intros L. unfold bytecode2asm. rewrite (first_pass_ok _ _ L). cbn [bind app]. exact (second_pass_ok _ _ L code [] [] eq_refl).
Qed.

(** ** Where operations are *)
Lemma fetch_at pre rest : fetch (pre ++ rest) (bytes pre) = hd_error rest.
Proof.
  induction pre as [|o pre IH]; [destruct rest; reflexivity|]. cbn [app fetch bytes fold_right]. fold (bytes pre). pose proof (size_pos o). pose proof (bytes_nonneg pre).
  destruct (Z.eqb_spec (size o + bytes pre) 0); [lia|]. destruct (Z.ltb_spec (size o + bytes pre) (size o)); [lia|].
  replace (size o + bytes pre - size o) with (bytes pre) by lia. exact IH.
Qed.
Lemma fetch_split code : forall a o, fetch code a = Some o -> exists pre rest, code = pre ++ o :: rest /\ a = bytes pre.
Proof.
  induction code as [|o code IH]; intros a o' H; cbn in H; [discriminate|]. destruct (Z.eqb_spec a 0) as [-> |N].
  - injection H as ->. exists [], code. auto.
  - destruct (a <? size o); [discriminate|]. apply IH in H as (pre & rest & -> & E). exists (o :: pre), rest. split; [reflexivity|]. cbn. fold (bytes pre). lia.
Qed.
Lemma destination_split code : forall pc a, In a (destinations code pc) -> exists pre o rest, code = pre ++ o :: rest /\ a = pc + bytes pre /\ is_dest o = true.
Proof.
  induction code as [|o code IH]; intros pc a H; cbn in H; [destruct H|]. apply in_app_iff in H as [H|H].
  - destruct (is_dest o) eqn:D; [|destruct H]. destruct H as [<-|[]]. exists [], o, code. cbn. split; [reflexivity|]. split; [lia|exact D].
  - apply IH in H as (pre & o' & rest & -> & -> & D). exists (o :: pre), o', rest. split; [reflexivity|]. split; [cbn; fold (bytes pre); lia|exact D].
Qed.

Definition named_ok (code : list opcode) : Prop := forall name, In (OOp name) code -> proper_name name.
Definition pushes_ok (code : list opcode) : Prop := forall n v, In (OPush n v) code -> 0 <= v.
Lemma listing_named code words : listing code words -> named_ok code /\ pushes_ok code.
Proof.
  induction 1 as [|n v text code words Hn Hv L [IH1 IH2]|name code words Pn L [IH1 IH2]]; split.
  - intros ? [].
  - intros ? ? [].
  - intros name [H|H]; [discriminate|auto].
  - intros n' v' [H|H]; [injection H as <- <-; eapply hex_value_nonneg; eassumption|eauto].
  - intros name' [H|H]; [injection H as <-; exact Pn|auto].
  - intros n' v' [H|H]; [discriminate|eauto].
Qed.
Lemma find_tag_app t a b : find_tag t a = None -> find_tag t (a ++ b) = option_map (fun k => (length a + k)%nat) (find_tag t b).
Proof.
  induction a as [|x a IH]; intros H; cbn [app find_tag length]; [destruct (find_tag t b); reflexivity|]. cbn [find_tag] in H.
  assert (Q : find_tag t a = None -> option_map S (find_tag t (a ++ b)) = option_map (fun k => (S (length a) + k)%nat) (find_tag t b)).
  { intros Ha. rewrite (IH Ha). destruct (find_tag t b); reflexivity. }
  destruct (tag_of_item x) as [z|]; [destruct (z =? t); [discriminate|]|]; apply Q; destruct (find_tag t a); [discriminate|reflexivity|discriminate|reflexivity].
Qed.
Lemma tag_item n : tag_of_item (build_assembly_instruction "tag" (Some (Z.of_nat n))) = Some (Z.of_nat n).
Proof. unfold tag_of_item, build_assembly_instruction. cbn [a_name a_value option_map]. cbn [String.eqb Ascii.eqb Bool.eqb]. apply PermutProps.py_int_str. lia. Qed.
Lemma push_item ds v : tag_of_item match tag_of_address ds 0 v with Some t => build_assembly_instruction "PUSH [tag]" (Some t) | None => build_assembly_instruction "PUSH" (Some v) end = None.
Proof. destruct (tag_of_address ds 0 v); reflexivity. Qed.
Lemma op_item name : proper_name name -> tag_of_item (build_assembly_instruction name None) = None.
Proof.
  intros (_ & _ & N). unfold tag_of_item, build_assembly_instruction. cbn [a_name a_value option_map]. destruct (String.eqb_spec name "tag"); [contradiction|reflexivity].
Qed.
Section Where.
Context (whole : list opcode) (NO : named_ok whole) (PO : pushes_ok whole).
Let ds := destinations whole 0.
Lemma earlier_tags pre2 o rest : forall pre1, whole = pre1 ++ pre2 ++ o :: rest ->
  forall t, (length (destinations (pre1 ++ pre2) 0) <= t)%nat -> find_tag (Z.of_nat t) (translate ds pre2 (bytes pre1)) = None.
Proof.
  induction pre2 as [|x pre2 IH]; intros pre1 E t Ht; [reflexivity|]. cbn [translate].
  assert (Ex : bytes pre1 + size x = bytes (pre1 ++ [x])) by (rewrite bytes_app; cbn; lia). rewrite Ex.
  assert (R : find_tag (Z.of_nat t) (translate ds pre2 (bytes (pre1 ++ [x]))) = None).
  { apply IH; rewrite <- app_assoc; [exact E|exact Ht]. }
  rewrite find_tag_app; [rewrite R; reflexivity|].
  destruct x as [n v|name]; cbn [items].
  - cbn [find_tag]. rewrite push_item. reflexivity.
  - destruct (is_dest (OOp name)) eqn:D.
    + unfold ds. rewrite E. change ((OOp name :: pre2) ++ o :: rest) with (OOp name :: pre2 ++ o :: rest). rewrite dest_number by exact D.
      cbn [find_tag]. rewrite tag_item. destruct (Z.eqb_spec (Z.of_nat (length (destinations pre1 0))) (Z.of_nat t)) as [Q|Q]; [|reflexivity].
      exfalso. rewrite destinations_app, app_length in Ht. cbn [destinations] in Ht. rewrite D in Ht. cbn [app length] in Ht. lia.
    + cbn [find_tag]. rewrite op_item; [reflexivity|]. apply NO. rewrite E. apply in_app_iff. right. left. reflexivity.
Qed.
Lemma find_dest pre o rest : whole = pre ++ o :: rest -> is_dest o = true ->
  find_tag (Z.of_nat (length (destinations pre 0))) (translate ds whole 0) = Some (length (translate ds pre 0)).
Proof.
  intros E D. rewrite E at 1. rewrite translate_app. cbn [Z.add]. rewrite find_tag_app.
  - cbn [translate]. destruct o as [|name]; [discriminate|]. cbn [items]. rewrite D. unfold ds. rewrite E. rewrite dest_number by exact D.
    cbn [app find_tag]. rewrite tag_item, Z.eqb_refl. cbn. f_equal. lia.
  - exact (earlier_tags pre o rest [] E _ (le_n _)).
Qed.
(** A number is the address of a destination iff it is that of a tag. *)
Lemma jump_same d : 
  match fetch whole d with Some o => is_dest o = true -> exists pre, (exists rest, whole = pre ++ rest) /\ d = bytes pre /\
     exists t, tag_of_address ds 0 d = Some t /\ find_tag t (translate ds whole 0) = Some (length (translate ds pre 0)) | None => True end
  /\ ((forall o, fetch whole d = Some o -> is_dest o = false) -> tag_of_address ds 0 d = None).
Proof.
  split.
  - destruct (fetch whole d) as [o|] eqn:F; [|exact I]. intros D. apply fetch_split in F as (pre & rest & E & ->). exists pre. split; [eauto|]. split; [reflexivity|].
    exists (Z.of_nat (length (destinations pre 0))). split; [unfold ds; rewrite E; apply dest_number; exact D|]. eapply find_dest; eassumption.
  - intros H. apply tag_of_address_none. intros Q. apply destination_split in Q as (pre & o & rest & E & -> & D).
    cbn [Z.add] in H. rewrite E, fetch_at in H. specialize (H o eq_refl). congruence.
Qed.
End Where.

(** ** Running *)
Lemma iterate_app {S} (step : S -> option S) n m s : iterate step (n + m) s = match iterate step n s with Some s' => iterate step m s' | None => None end.
Proof. revert s. induction n as [|n IH]; intros s; cbn; [reflexivity|]. destruct (step s); [apply IH|reflexivity]. Qed.
Section Simulation.
Context {World End : Type} (arity : string -> nat) (exec : string -> list Z -> World -> @effect World End).
Context (whole : list opcode) (NO : named_ok whole) (PO : pushes_ok whole).
Let ds := destinations whole 0.
Let code := translate ds whole 0.
Let b := bstep arity exec whole.
Let a := astep arity exec (fun z => z) Some (address ds) (tag_of_address ds 0) code.
Inductive related : @state World End Z Z -> @state World End nat Z -> Prop :=
| rel_at pre rest st w : whole = pre ++ rest -> related (At (bytes pre) st w) (At (length (translate ds pre 0)) st w)
| rel_end e : related (Finished e) (Finished e).
Lemma code_at pre o rest k : whole = pre ++ o :: rest -> nth_error code (length (translate ds pre 0) + k) = nth_error (items ds (bytes pre) o ++ translate ds rest (bytes pre + size o)) k.
Proof. intros E. unfold code. rewrite E at 1. rewrite translate_app, nth_error_app2 by lia. cbn [translate Z.add]. f_equal. lia. Qed.
Lemma after pre o rest : whole = pre ++ o :: rest -> length (translate ds (pre ++ [o]) 0) = (length (translate ds pre 0) + length (items ds (bytes pre) o))%nat.
Proof. intros E. rewrite translate_app, app_length. cbn [translate Z.add]. rewrite app_nil_r. reflexivity. Qed.
Lemma next_related pre o rest st w : whole = pre ++ o :: rest -> related (At (bytes pre + size o) st w) (At (length (translate ds pre 0) + length (items ds (bytes pre) o))%nat st w).
Proof.
  intros E. rewrite <- (after pre o rest E). replace (bytes pre + size o) with (bytes (pre ++ [o])) by (rewrite bytes_app; cbn; lia).
  apply rel_at with (rest := rest). rewrite <- app_assoc. exact E.
Qed.
Lemma step_related s x : related s x ->
  match b s with Some s' => exists k x', iterate a (S k) x = Some x' /\ related s' x' | None => a x = None end.
Proof.
  intros [pre rest st w E|e]; [|reflexivity]. assert (F0 : fetch whole (bytes pre) = hd_error rest) by (rewrite E; apply fetch_at).
  unfold b, bstep. rewrite F0. clear F0. destruct rest as [|o rest]; cbn [hd_error].
  { unfold a, astep. rewrite app_nil_r in E. rewrite (proj2 (nth_error_None code _)); [reflexivity|]. unfold code. rewrite <- E. lia. }
  pose proof (code_at pre o rest 0 E) as C0. rewrite Nat.add_0_r in C0.
  destruct o as [n v|name].
  - exists 0%nat. eexists. cbn [iterate]. unfold a, astep. rewrite C0. cbn [items app nth_error].
    assert (Hv : 0 <= v) by (apply (PO n); rewrite E; apply in_app_iff; right; left; reflexivity).
    pose proof (next_related pre (OPush n v) rest (v :: st) w E) as R. cbn [size items length] in R. rewrite Z.add_assoc, Nat.add_1_r in R.
    destruct (tag_of_address ds 0 v) as [t|] eqn:T.
    + cbn [build_assembly_instruction a_name a_value option_map]. change (String.eqb "PUSH [tag]" "tag") with false. change (String.eqb "PUSH [tag]" "PUSH") with false. change (String.eqb "PUSH [tag]" "PUSH [tag]") with true. cbv iota.
      rewrite PermutProps.py_int_str by (apply tag_of_address_ge in T; lia). cbn [option_map].
      assert (Q : address ds t = v). { apply tag_of_address_nth in T. rewrite Z.sub_0_r in T. unfold address. apply nth_error_nth. exact T. }
      rewrite Q. split; [reflexivity|exact R].
    + cbn [build_assembly_instruction a_name a_value option_map]. change (String.eqb "PUSH" "tag") with false. change (String.eqb "PUSH" "PUSH") with true. cbv iota.
      rewrite hex_value_drop2' by exact Hv. split; [reflexivity|exact R].
  - assert (PN : proper_name name) by (apply NO; rewrite E; apply in_app_iff; right; left; reflexivity).
    destruct (is_dest (OOp name)) eqn:D.
    + cbn in D. apply String.eqb_eq in D as ->. change (moves arity exec (fun z : Z => z) Some "JUMPDEST" st w) with (Next (World := World) (End := End) st w). cbv iota.
      exists 1%nat. eexists. cbn [iterate].
      assert (C1 : nth_error code (S (length (translate ds pre 0))) = Some (build_assembly_instruction "JUMPDEST" None)) by (rewrite <- Nat.add_1_r, (code_at pre _ rest 1 E); reflexivity).
      assert (C2 : nth_error code (length (translate ds pre 0)) = Some (build_assembly_instruction "tag" (tag_of_address ds 0 (bytes pre)))) by (rewrite C0; reflexivity).
      pose proof (next_related pre (OOp "JUMPDEST") rest st w E) as R.
      assert (A0 : a (At (length (translate ds pre 0)) st w) = Some (At (S (length (translate ds pre 0))) st w)) by (unfold a, astep; rewrite C2; reflexivity).
      assert (A1 : a (At (S (length (translate ds pre 0))) st w) = Some (At (S (S (length (translate ds pre 0)))) st w)) by (unfold a, astep; rewrite C1; reflexivity).
      rewrite A0, A1.
      split; [reflexivity|]. cbn [size items is_dest] in R. change (String.eqb "JUMPDEST" "JUMPDEST") with true in R. cbv iota in R. cbn [length] in R.
      replace (S (S (length (translate ds pre 0)))) with (length (translate ds pre 0) + 2)%nat by lia. exact R.
    + cbn [items] in C0. rewrite D in C0. cbn [app nth_error] in C0.
      destruct PN as (PP & _ & PT).
      assert (N1 : String.eqb name "tag" = false) by (apply String.eqb_neq; exact PT).
      assert (N2 : String.eqb name "PUSH" = false) by (apply String.eqb_neq; intros ->; specialize (PP eq_refl); discriminate).
      assert (N3 : String.eqb name "PUSH [tag]" = false) by (apply String.eqb_neq; intros ->; specialize (PP eq_refl); discriminate).
      assert (St : a (At (length (translate ds pre 0)) st w) =
        match moves arity exec (fun z => z) Some name st w with
        | Next st' w' => Some (At (S (length (translate ds pre 0))) st' w')
        | Jump d st' w' => match tag_of_address ds 0 d with Some t => option_map (fun k => At k st' w') (find_tag t code) | None => None end
        | Over e => Some (Finished e)
        | Stuck => None
        end).
      { unfold a, astep. rewrite C0. cbn [build_assembly_instruction a_name]. rewrite N1, N2, N3. reflexivity. }
      destruct (moves arity exec (fun z => z) Some name st w) as [st' w'|d st' w'|e|] eqn:M.
      * exists 0%nat. eexists. cbn [iterate]. rewrite St. split; [reflexivity|].
        pose proof (next_related pre (OOp name) rest st' w' E) as R. cbn [size items] in R. rewrite D in R. cbn [length] in R. rewrite Nat.add_1_r in R. exact R.
      * destruct (jump_same whole NO d) as [J1 J2]. fold ds in J1, J2. fold code in J1.
        destruct (fetch whole d) as [o|] eqn:F.
        -- destruct (is_dest o) eqn:DD.
           ++ destruct (J1 eq_refl) as (pre' & (rest' & E') & -> & t & T1 & T2). exists 0%nat. eexists. cbn [iterate]. rewrite St, T1, T2. split; [reflexivity|]. eapply rel_at. exact E'.
           ++ rewrite St, J2; [reflexivity|]. intros o' [= <-]. exact DD.
        -- rewrite St, J2; [reflexivity|]. discriminate.
      * exists 0%nat. eexists. cbn [iterate]. rewrite St. split; [reflexivity|constructor].
      * exact St.
Qed.
End Simulation.

(** A simulation in which the second machine needs one or more steps for one of
    the first, and stops if the first one does. *)
Section Lockstep.
Context {World End P W P' W' : Type} (b : @state World End P W -> option (@state World End P W)) (a : @state World End P' W' -> option (@state World End P' W')).
Context (R : @state World End P W -> @state World End P' W' -> Prop).
Hypothesis Rstep : forall s x, R s x -> match b s with Some s' => exists k x', iterate a (S k) x = Some x' /\ R s' x' | None => a x = None end.
Hypothesis Rend : forall s x, R s x -> match s, x with Finished e, Finished e' => e = e' | At _ _ _, At _ _ _ => True | _, _ => False end.
Hypothesis aend : forall e, a (Finished e) = None.
Lemma run_related n : forall s x s', R s x -> iterate b n s = Some s' -> exists k x', (n <= k)%nat /\ iterate a k x = Some x' /\ R s' x'.
Proof.
  induction n as [|n IH]; intros s x s' H E; cbn [iterate] in E.
  - injection E as <-. exists 0%nat, x. auto.
  - pose proof (Rstep s x H) as Q. destruct (b s) as [s1|]; [|discriminate]. destruct Q as (k & x1 & Q1 & Q2).
    destruct (IH s1 x1 s' Q2 E) as (k' & x' & L & E' & R'). exists (S k + k')%nat, x'. split; [lia|]. split; [|exact R']. rewrite iterate_app, Q1. exact E'.
Qed.
Lemma stuck_later x : a x = None -> forall n y, iterate a n x = Some y -> y = x.
Proof. intros H [|n] y E; cbn in E; [congruence|]. rewrite H in E. discriminate. Qed.
Lemma ends_related s x e : R s x -> (ends_with b s e <-> ends_with a x e).
Proof.
  intros H. split.
  - intros (n & E). destruct (run_related n s x _ H E) as (k & x' & _ & E' & R'). pose proof (Rend _ _ R') as Q. destruct x' as [|e']; [destruct Q|]. subst e'. exists k. exact E'.
  - intros (m & E). revert s x H E. induction m as [m IH] using (well_founded_induction lt_wf). intros s x H E.
    pose proof (Rstep s x H) as Q. destruct (b s) as [s1|] eqn:B.
    + destruct Q as (k & x1 & Q1 & Q2). destruct (le_lt_dec (S k) m) as [L|L].
      * replace m with (S k + (m - S k))%nat in E by lia. rewrite iterate_app, Q1 in E. destruct (IH (m - S k)%nat ltac:(lia) s1 x1 Q2 E) as (n & En).
        exists (S n). cbn [iterate]. rewrite B. exact En.
      * exfalso. replace (S k) with (m + S (k - m))%nat in Q1 by lia. rewrite iterate_app, E in Q1. cbn [iterate] in Q1. rewrite aend in Q1. discriminate.
    + apply (stuck_later x Q) in E. subst x. pose proof (Rend _ _ H) as Q'. destruct s as [|e']; [destruct Q'|]. subst e'. exists 0%nat. reflexivity.
Qed.
Lemma runs_related s x : R s x -> (runs_on b s <-> runs_on a x).
Proof.
  intros H. split.
  - intros F n. destruct (F n) as (p & st & w & E). destruct (run_related n s x _ H E) as (k & x' & L & E' & R').
    replace k with (n + (k - n))%nat in E' by lia. rewrite iterate_app in E'. destruct (iterate a n x) as [[p' st' w'|e]|] eqn:Q; [eauto| |discriminate].
    exfalso. destruct (k - n)%nat as [|j]; cbn in E'; [|rewrite aend in E'; discriminate]. injection E' as <-. pose proof (Rend _ _ R') as K. destruct K.
  - intros F n. assert (Q : exists s' x', iterate b n s = Some s' /\ R s' x' /\ runs_on a x').
    { revert s x H F. induction n as [|n IH]; intros s x H F; [exists s, x; auto|]. pose proof (Rstep s x H) as Q. destruct (b s) as [s1|] eqn:B.
      - destruct Q as (k & x1 & Q1 & Q2). assert (F1 : runs_on a x1). { intros m. destruct (F (S k + m)%nat) as (p & st & w & E). rewrite iterate_app, Q1 in E. eauto. }
        destruct (IH s1 x1 Q2 F1) as (s' & x' & A & B' & C). exists s', x'. cbn [iterate]. rewrite B. auto.
      - exfalso. destruct (F 1%nat) as (p & st & w & E). cbn in E. rewrite Q in E. discriminate. }
    destruct Q as (s' & x' & E & R' & F'). destruct s' as [p st w|e]; [eauto|]. exfalso. pose proof (Rend _ _ R') as K. destruct x' as [|e']; [exact K|].
    destruct (F' 0%nat) as (p & st & w & E'). discriminate.
Qed.
End Lockstep.

(** ** Tags as names *)
Section Labels.
Context {World End : Type} (arity : string -> nat) (exec : string -> list Z -> World -> @effect World End).
Context (code : list asm) (place : Z -> Z) (tag_at : Z -> option Z).
Hypothesis placed : forall t, find_tag t code <> None -> tag_at (place t) = Some t.
Definition value (x : word) : Z := match x with Number z => z | Label t => place t end.
Let sy := astep arity exec Number number_of Label label_of code.
Let co := astep arity exec (fun z => z) Some place tag_at code.
Definition image (s : @state World End nat word) : @state World End nat Z := match s with At i st w => At i (map value st) w | Finished e => Finished e end.
Lemma numbers_image xs l : numbers number_of xs = Some l -> numbers Some (map value xs) = Some l.
Proof.
  revert l. induction xs as [|x xs IH]; intros l E; cbn in *; [exact E|]. destruct x as [z|t]; cbn in E; [|discriminate].
  destruct (numbers number_of xs) as [l'|]; [|discriminate]. rewrite (IH l' eq_refl). exact E.
Qed.
Lemma set_nth_map n x (l : list word) : set_nth n (value x) (map value l) = map value (set_nth n x l).
Proof. symmetry. apply map_set_nth. Qed.
Lemma moves_image name st w :
  match moves arity exec Number number_of name st w with
  | Next st' w' => moves arity exec (fun z => z) Some name (map value st) w = Next (map value st') w'
  | Jump d st' w' => moves arity exec (fun z => z) Some name (map value st) w = Jump (value d) (map value st') w'
  | Over e => moves arity exec (fun z => z) Some name (map value st) w = Over e
  | Stuck => True
  end.
Proof.
  unfold moves. destruct (String.eqb name "JUMPDEST"); [reflexivity|]. destruct (String.eqb name "PUSH0"); [reflexivity|].
  destruct (String.eqb name "JUMP"). { destruct st; [exact I|reflexivity]. }
  destruct (String.eqb name "JUMPI"). { destruct st as [|d [|c st]]; [exact I..|]. destruct c as [z|t]; cbn [map value number_of]; [|exact I]. destruct (z =? 0); reflexivity. }
  destruct (String.eqb name "POP"). { destruct st; [exact I|reflexivity]. }
  destruct (startswith "DUP" name).
  { destruct (py_int (sdrop 3 name)) as [n|]; [|exact I]. rewrite nth_error_map. destruct (nth_error st (Z.to_nat (n - 1))); [reflexivity|exact I]. }
  destruct (startswith "SWAP" name).
  { destruct (py_int (sdrop 4 name)) as [n|]; [|exact I]. destruct st as [|x st]; [exact I|]. change (map value (x :: st)) with (value x :: map value st).
    change (value x :: map value st) with (map value (x :: st)). rewrite nth_error_map. destruct (nth_error (x :: st) (Z.to_nat n)) as [y|]; [|exact I]. cbn [option_map map].
    change (value x :: map value st) with (map value (x :: st)). rewrite !set_nth_map. reflexivity. }
  rewrite map_length. destruct (length st <? arity name)%nat; [exact I|]. destruct (numbers number_of (firstn (arity name) st)) as [args|] eqn:N; [|exact I].
  rewrite firstn_map, (numbers_image _ _ N). destruct (exec name args w) as [results w'|e]; [|reflexivity].
  rewrite map_app, map_map, map_id, skipn_map. cbn [value]. rewrite map_id. reflexivity.
Qed.
Lemma step_image s s' : sy s = Some s' -> co (image s) = Some (image s').
Proof.
  destruct s as [i st w|e]; [|discriminate]. unfold sy, co, astep, image at 1. destruct (nth_error code i) as [x|]; [|discriminate].
  destruct (String.eqb (a_name x) "tag"); [intros [= <-]; reflexivity|].
  destruct (String.eqb (a_name x) "PUSH"). { destruct (a_value x) as [t|]; [|discriminate]. destruct (hex_value t); [|discriminate]. intros [= <-]. reflexivity. }
  destruct (String.eqb (a_name x) "PUSH [tag]"). { destruct (a_value x) as [t|]; [|discriminate]. destruct (py_int t); [|discriminate]. intros [= <-]. reflexivity. }
  pose proof (moves_image (a_name x) st w) as M. destruct (moves arity exec Number number_of (a_name x) st w) as [st' w'|d st' w'|e|]; try rewrite M.
  - intros [= <-]. reflexivity.
  - destruct d as [z|t]; cbn [label_of value]; [discriminate|]. destruct (find_tag t code) as [k|] eqn:F; [|discriminate]. intros [= <-].
    rewrite placed by congruence. rewrite F. reflexivity.
  - intros [= <-]. reflexivity.
  - discriminate.
Qed.
Lemma run_image n : forall s s', iterate sy n s = Some s' -> iterate co n (image s) = Some (image s').
Proof.
  induction n as [|n IH]; intros s s' E; cbn [iterate] in *; [congruence|]. destruct (sy s) as [s1|] eqn:Q; [|discriminate]. rewrite (step_image s s1 Q). auto.
Qed.
Lemma labels_end i st w e : ends_with sy (At i st w) e -> ends_with co (At i (map value st) w) e.
Proof. intros (n & E). exists n. exact (run_image n _ _ E). Qed.
Lemma labels_run i st w : runs_on sy (At i st w) -> runs_on co (At i (map value st) w).
Proof. intros F n. destruct (F n) as (p & st' & w' & E). apply run_image in E. cbn [image] in E. eauto. Qed.
End Labels.
