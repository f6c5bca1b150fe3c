(** From the opcodes printed by the compiler to assembly (C57). *)
From Verif Require Import Base Lexical LexicalProofs SymExecModel AsmModel MachineSpec ProgSem ImportModel ImportSpec ImportProofs ImportText.
From Verif Require PermutProps.
Open Scope string_scope. Open Scope list_scope. Open Scope Z_scope.

(** The assembly, its tags standing for the addresses that their JUMPDEST had,
    does what the byte code does: it ends in the same ways and goes on for ever if
    the byte code does. *)
Theorem assembly_does_what_bytes_do : forall code words, listing code words ->
  exists asm, bytecode2asm words = Ok asm /\
  forall (World End : Type) (arity : string -> nat) (exec : string -> list Z -> World -> @effect World End) st w,
  let bytes := bstep arity exec code in
  let assembly := astep arity exec (fun z => z) Some (address (destinations code 0)) (tag_of_address (destinations code 0) 0) asm in
  (forall e, ends_with bytes (At 0 st w) e <-> ends_with assembly (At 0%nat st w) e)
  /\ (runs_on bytes (At 0 st w) <-> runs_on assembly (At 0%nat st w)).
Proof.
  intros code words L. eexists. split; [exact (bytecode2asm_ok _ _ L)|]. intros World End arity exec st w bs asm.
  destruct (listing_named _ _ L) as [NO PO].
  pose proof (fun s x => step_related (World := World) (End := End) arity exec code NO PO s x) as Step.
  assert (R0 : related (World := World) (End := End) code (At 0 st w) (At 0%nat st w)) by exact (rel_at code [] code st w eq_refl).
  assert (RE : forall s x, related (World := World) (End := End) code s x -> match s, x with Finished e, Finished e' => e = e' | At _ _ _, At _ _ _ => True | _, _ => False end)
    by (intros s x []; [exact I|reflexivity]).
  split; [intros e; exact (ends_related bs asm (related code) Step RE (fun _ => eq_refl) _ _ e R0)|exact (runs_related bs asm (related code) Step RE (fun _ => eq_refl) _ _ R0)].
Qed.
Print Assumptions assembly_does_what_bytes_do.

(** Wherever the code is put: if the tags are only used to jump (the run in which
    they are mere names ends, or goes on for ever), the run is the same for every
    choice of addresses, that of the byte code included. *)
Theorem addresses_do_not_matter : forall code words asm, listing code words -> bytecode2asm words = Ok asm ->
  forall (World End : Type) (arity : string -> nat) (exec : string -> list Z -> World -> @effect World End) w,
  let named := astep arity exec Number number_of Label label_of asm in
  let moved place tag_at := astep arity exec (fun z => z) Some place tag_at asm in
  (forall e, ends_with named (At 0%nat [] w) e ->
     ends_with (bstep arity exec code) (At 0 [] w) e
     /\ forall place tag_at, (forall t, find_tag t asm <> None -> tag_at (place t) = Some t) -> ends_with (moved place tag_at) (At 0%nat [] w) e)
  /\ (runs_on named (At 0%nat [] w) ->
     runs_on (bstep arity exec code) (At 0 [] w)
     /\ forall place tag_at, (forall t, find_tag t asm <> None -> tag_at (place t) = Some t) -> runs_on (moved place tag_at) (At 0%nat [] w)).
Proof.
  intros code words asm L E World End arity exec w named moved. destruct (assembly_does_what_bytes_do code words L) as (asm' & E' & B).
  rewrite E in E'. injection E' as <-. destruct (B World End arity exec [] w) as [B1 B2]. clear B.
  assert (P : forall t, find_tag t asm <> None -> tag_of_address (destinations code 0) 0 (address (destinations code 0) t) = Some t).
  { intros t F. rewrite (bytecode2asm_ok _ _ L) in E. injection E as <-. clear B1 B2 named moved.
    assert (G : forall rest pre, code = pre ++ rest -> find_tag t (translate (destinations code 0) rest (bytes pre)) <> None ->
      exists p o r, code = p ++ o :: r /\ is_dest o = true /\ t = Z.of_nat (length (destinations p 0))).
    { induction rest as [|o rest IH]; intros pre Ec H; [contradiction H; reflexivity|]. cbn [translate] in H.
      destruct (is_dest o) eqn:D.
      - destruct (Z.eq_dec t (Z.of_nat (length (destinations pre 0)))) as [Q|Q]; [exists pre, o, rest; auto|].
        apply (IH (pre ++ [o])); [rewrite <- app_assoc; exact Ec|]. rewrite bytes_app. cbn [bytes fold_right]. rewrite Z.add_0_r. intros N. apply H.
        rewrite find_tag_app; [rewrite N; reflexivity|]. destruct o as [|name]; [discriminate|]. cbn [items]. rewrite D. rewrite Ec at 1. rewrite dest_number by exact D.
        cbn [find_tag]. rewrite tag_item. destruct (Z.eqb_spec (Z.of_nat (length (destinations pre 0))) t); [congruence|reflexivity].
      - apply (IH (pre ++ [o])); [rewrite <- app_assoc; exact Ec|]. rewrite bytes_app. cbn [bytes fold_right]. rewrite Z.add_0_r. intros N. apply H.
        rewrite find_tag_app; [rewrite N; reflexivity|]. destruct o as [n v|name]; cbn [items]; [cbn [find_tag]; rewrite push_item; reflexivity|]. rewrite D. cbn [find_tag].
        rewrite op_item; [reflexivity|]. apply (proj1 (listing_named _ _ L)). rewrite Ec. apply in_app_iff. right. left. reflexivity. }
    destruct (G code [] eq_refl F) as (p & o & r & Ec & D & ->). unfold address. rewrite Nat2Z.id.
    pose proof (dest_number p o r D) as DN. rewrite <- Ec in DN. pose proof (tag_of_address_nth _ _ _ _ DN) as N. rewrite Z.sub_0_r, Nat2Z.id in N.
    rewrite (nth_error_nth _ _ _ N). exact DN. }
  split.
  - intros e H. split; [|intros place tag_at PL; exact (labels_end arity exec asm place tag_at PL 0%nat [] w e H)].
    apply B1. exact (labels_end arity exec asm _ _ P 0%nat [] w e H).
  - intros H. split; [|intros place tag_at PL; exact (labels_run arity exec asm place tag_at PL 0%nat [] w H)].
    apply B2. exact (labels_run arity exec asm _ _ P 0%nat [] w H).
Qed.
Print Assumptions addresses_do_not_matter.

(** The tags are 0, 1, ..., one for each JUMPDEST in order, and only they are pushed. *)
Definition tags_of (code : list asm) : list Z := flat_map (fun x => match tag_of_item x with Some t => [t] | None => [] end) code.
Definition jumpdests (code : list opcode) : nat := length (filter is_dest code).
Lemma count_destinations code : forall pc, length (destinations code pc) = jumpdests code.
Proof. unfold jumpdests. induction code as [|o code IH]; intros pc; cbn; [reflexivity|]. rewrite app_length, IH. destruct (is_dest o); reflexivity. Qed.
Theorem tags_numbered : forall code words asm, listing code words -> bytecode2asm words = Ok asm ->
  tags_of asm = map Z.of_nat (seq 0 (jumpdests code))
  /\ forall x, In x asm -> a_name x = "PUSH [tag]" -> exists t, (t < jumpdests code)%nat /\ a_value x = Some (str_Z (Z.of_nat t)).
Proof.
  intros code words asm L E. rewrite (bytecode2asm_ok _ _ L) in E. injection E as <-. destruct (listing_named _ _ L) as [NO _]. split.
  - assert (G : forall rest pre, code = pre ++ rest -> tags_of (translate (destinations code 0) rest (bytes pre)) = map Z.of_nat (seq (jumpdests pre) (jumpdests rest))).
    { induction rest as [|o rest IH]; intros pre Ec; [reflexivity|]. cbn [translate]. unfold tags_of. rewrite flat_map_app. fold (tags_of (translate (destinations code 0) rest (bytes pre + size o))).
      replace (bytes pre + size o) with (bytes (pre ++ [o])) by (rewrite bytes_app; cbn; lia). rewrite (IH (pre ++ [o])) by (rewrite <- app_assoc; exact Ec).
      unfold jumpdests at 1. rewrite filter_app, app_length. fold (jumpdests pre). unfold jumpdests at 4. cbn [filter]. destruct o as [n v|name]; cbn [items].
      - cbn [flat_map is_dest length app]. rewrite push_item, Nat.add_0_r. reflexivity.
      - destruct (is_dest (OOp name)) eqn:D.
        + rewrite Ec at 1. rewrite (dest_number pre (OOp name) rest D). cbn [flat_map]. rewrite tag_item, count_destinations. change (tag_of_item (build_assembly_instruction "JUMPDEST" None)) with (@None Z).
          cbn [app length seq map]. rewrite Nat.add_1_r. reflexivity.
        + cbn [flat_map length]. rewrite op_item by (apply NO; rewrite Ec; apply in_app_iff; right; left; reflexivity). cbn [app]. rewrite Nat.add_0_r. reflexivity. }
    exact (G code [] eq_refl).
  - intros x Hx N. assert (G : forall rest pc, (forall name, In (OOp name) rest -> proper_name name) -> In x (translate (destinations code 0) rest pc) -> exists v t, tag_of_address (destinations code 0) 0 v = Some t /\ a_value x = Some (str_Z t)).
    { induction rest as [|o rest IH]; intros pc PN H; [destruct H|]. cbn [translate] in H. apply in_app_iff in H as [H|H]; [|apply (IH _ (fun n Hn => PN n (or_intror Hn)) H)].
      destruct o as [n v|name]; cbn [items] in H.
      - destruct H as [H|[]]. destruct (tag_of_address (destinations code 0) 0 v) as [t|] eqn:T; subst x; [exists v, t; auto|discriminate].
      - destruct (is_dest (OOp name)) eqn:D.
        + destruct H as [H|[H|[]]]; subst x; discriminate.
        + destruct H as [H|[]]; subst x. cbn in N. subst name. destruct (PN _ (or_introl eq_refl)) as (Q & _). specialize (Q eq_refl). discriminate. }
    destruct (G code 0 NO Hx) as (v & t & T & V). pose proof (tag_of_address_ge _ _ _ _ T). exists (Z.to_nat t). rewrite Z2Nat.id by lia. split; [|exact V].
    apply tag_of_address_nth in T. rewrite Z.sub_0_r in T. rewrite <- (count_destinations code 0). apply nth_error_Some. congruence.
Qed.
Print Assumptions tags_numbered.

(** The creation code and the deployed code are found in the text if neither
    contains INVALID; a third part (the metadata) may follow. *)
Theorem contract_taken_apart : forall init deployed rest, Forall (fun p => p <> [] /\ Forall good_word p) (init :: deployed :: rest) -> (length rest <= 1)%nat ->
  asm_from_opcodes (text_of (init :: deployed :: rest)) = (do a <- bytecode2asm init; do b <- bytecode2asm deployed; Ok (a, b)).
Proof.
  intros init deployed rest F R. unfold asm_from_opcodes, regions.
  pose proof (parts_found (init :: deployed :: rest) ltac:(discriminate) F "" (or_introl eq_refl)) as P.
  change ("" ++ text_of (init :: deployed :: rest))%string with (text_of (init :: deployed :: rest)) in P. unfold invalid in P. rewrite P.
  assert (Q : ((length (init :: deployed :: rest) =? 2)%nat || (length (init :: deployed :: rest) =? 3)%nat) = true) by (destruct rest as [|r [|r' rest]]; [reflexivity|reflexivity|cbn in R; lia]).
  rewrite Q. reflexivity.
Qed.
Print Assumptions contract_taken_apart.

(** ** Examples *)
Module ImportExample.
(** A loop that adds 1 to the word in storage until the counter is 0:
    PUSH1 5, JUMPDEST (address 2), ..., PUSH1 2, JUMPI, STOP. *)
Definition code : list opcode :=
  [OPush 1 5; OOp "JUMPDEST"; OOp "PUSH0"; OOp "SLOAD"; OPush 1 1; OOp "ADD"; OOp "PUSH0"; OOp "SSTORE"; OPush 1 1; OOp "SWAP1"; OOp "SUB"; OOp "DUP1"; OPush 2 2; OOp "JUMPI"; OOp "STOP"].
Definition words : list string :=
  ["PUSH1"; "0x5"; "JUMPDEST"; "PUSH0"; "SLOAD"; "PUSH1"; "0x1"; "ADD"; "PUSH0"; "SSTORE"; "PUSH1"; "0x1"; "SWAP1"; "SUB"; "DUP1"; "PUSH2"; "0x2"; "JUMPI"; "STOP"].
Ltac proper := repeat split; cbn; intros; try discriminate; reflexivity.
Lemma listed : listing code words.
Proof.
  unfold code, words.
  repeat first [ apply listing_nil
               | refine (listing_push _ _ _ _ _ _ _ _); [lia|vm_compute; reflexivity|]
               | refine (listing_op _ _ _ _ _); [proper|] ].
Qed.
Definition arity (name : string) : nat := if mem name ["ADD"; "SUB"; "SSTORE"] then 2 else if mem name ["SLOAD"] then 1 else 0.
Definition exec (name : string) (args : list Z) (w : Z) : @effect Z Z :=
  match args with
  | [x; y] => if String.eqb name "ADD" then Goes [x + y] w else if String.eqb name "SUB" then Goes [x - y] w else Goes [] y
  | [_] => Goes [w] w
  | _ => Ends w
  end.
Definition asm := match bytecode2asm words with Ok a => a | Raise _ => [] end.
Example translated : bytecode2asm words = Ok asm /\ map a_name asm =
  ["PUSH"; "tag"; "JUMPDEST"; "PUSH0"; "SLOAD"; "PUSH"; "ADD"; "PUSH0"; "SSTORE"; "PUSH"; "SWAP1"; "SUB"; "DUP1"; "PUSH [tag]"; "JUMPI"; "STOP"].
Proof. split; vm_compute; reflexivity. Qed.
Example assembly_applies : ends_with (bstep arity exec code) (At 0 [] 10) 15.
Proof.
  apply (addresses_do_not_matter code words asm listed (proj1 translated)). exists 72%nat. vm_compute. reflexivity.
Qed.
Example numbered_applies : tags_of asm = [0].
Proof. rewrite (proj1 (tags_numbered code words asm listed (proj1 translated))). reflexivity. Qed.
Example apart_applies : asm_from_opcodes "PUSH1 0x5 STOP INVALID JUMPDEST STOP INVALID LOG2 PUSH5 0x6970667358"
  = Ok ([{| a_name := "PUSH"; a_value := Some "5" |}; {| a_name := "STOP"; a_value := None |}],
        [{| a_name := "tag"; a_value := Some "0" |}; {| a_name := "JUMPDEST"; a_value := None |}; {| a_name := "STOP"; a_value := None |}]).
Proof.
  refine (eq_trans (contract_taken_apart ["PUSH1"; "0x5"; "STOP"] ["JUMPDEST"; "STOP"] [["LOG2"; "PUSH5"; "0x6970667358"]] _ _) _); [|cbn; lia|vm_compute; reflexivity].
  assert (G : forall w, negb (String.eqb w "") && forallb (fun c => negb (is_space c)) (list_ascii_of_string w) && negb (contains "INVALID" w) = true -> good_word w).
  { intros w H. apply andb_true_iff in H as [H C]. apply andb_true_iff in H as [A B]. apply negb_true_iff in A, C. split; [apply String.eqb_neq; exact A|]. split; [|exact C].
    intros c Hc. rewrite forallb_forall in B. apply negb_true_iff. auto. }
  repeat constructor; try discriminate; apply G; vm_compute; reflexivity.
Qed.

(** ** What does not hold *)
(** A constant that happens to be the address of a JUMPDEST becomes a tag: once
    the code is assembled anew the constant is another one.  The byte code stores 5,
    the assembly with the tag at address 4 stores 4. *)
Definition data : list opcode := [OPush 2 5; OPush 1 0; OOp "JUMPDEST"; OOp "SSTORE"; OOp "STOP"].
Definition data_words : list string := ["PUSH2"; "0x5"; "PUSH1"; "0x0"; "JUMPDEST"; "SSTORE"; "STOP"].
Theorem constants_kept_refuted :
  listing data data_words /\ exists asm, bytecode2asm data_words = Ok asm
  /\ ends_with (bstep arity exec data) (At 0 [] 10) 5
  /\ ends_with (astep arity exec (fun z => z) Some (fun _ => 4) (fun a => if a =? 4 then Some 0 else None) asm) (At 0%nat [] 10) 4.
Proof.
  split.
  { unfold data, data_words.
    repeat first [ apply listing_nil
                 | refine (listing_push _ _ _ _ _ _ _ _); [lia|vm_compute; reflexivity|]
                 | refine (listing_op _ _ _ _ _); [proper|] ]. }
  eexists. split; [vm_compute; reflexivity|]. split; [exists 5%nat; vm_compute; reflexivity|exists 6%nat; vm_compute; reflexivity].
Qed.
Print Assumptions constants_kept_refuted.
(** INVALID inside the deployed code: what follows it is lost without notice, or
    the contract is refused. *)
Theorem invalid_in_code_refuted :
  asm_from_opcodes "STOP INVALID JUMPDEST INVALID JUMPDEST STOP" = asm_from_opcodes "STOP INVALID JUMPDEST"
  /\ asm_from_opcodes "STOP INVALID JUMPDEST INVALID JUMPDEST STOP INVALID LOG2" = Raise AssertionError.
Proof. split; vm_compute; reflexivity. Qed.
Print Assumptions invalid_in_code_refuted.
End ImportExample.
