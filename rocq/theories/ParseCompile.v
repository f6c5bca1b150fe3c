(** C52 and C58 together: from the file to the code. *)
From Verif Require Import Base Lexical SymExecModel AsmModel MachineSpec FootprintSpec DepsModel GreedyTailModel SpecModel SpecSem SpecDce BlockSpec EmitModel EmitSpec RegModel RegsSpec ProgSem ProgSpec ProgProofs ProgProps ProgExample.
From Verif Require Import UtilModel UtilProps LiveModel CfgModel CfgSpec RemoveProps RenameModel JumpModel JumpSpec JumpExamples CombineModel ObjCombineSpec ObjCombineProps ObjSem ObjProgram ObjExamples ObjRenameModel ObjRenameSpec ObjRenameProps ObjSsaSpec ObjInlineModel ObjDriverSpec
  InlineDriverModel ObjDriver ObjDriverProps ObjLayoutSpec ConstModel ConstSpec ObjFrontModel ObjFront ObjFrontProps CompileSpec CompileOrigin CompileProofs CompileProps CompileCheck CompileExample.
From Verif Require Import ParseModel ParseSpec ParseProofs ParseTranslate ParseComponent ParseSim ParseFile.
Notation lookup := UtilModel.lookup.
Open Scope string_scope. Open Scope list_scope.

(** Whatever the machine does for its words, there is a meaning of the operations
    of the file that it implements: the one of the words that stand for them. *)
Definition bare (op : string) (l : option (list string)) : linstr := {| li_op := op; li_ins := []; li_outs := []; li_lits := l |}.
Definition meaning_of {V W} (builtin : bool) keys (self : string) (index : option string -> string -> Z) (M : words V W) : jwords V W :=
  {| jw_do := fun c op l => o_do M (if builtin then bare op l else translated keys (index c) self (bare op l)); jw_word := o_word M; jw_truth := o_truth M |}.
Lemma stands_translated keys index self op l op' l' : stands_for keys index self op l op' l' -> li_op (translated keys index self (bare op l)) = op' /\ li_lits (translated keys index self (bare op l)) = l'.
Proof.
  intros [l0|l0 l1 F|r t R|x r t N R|x r t R|l0|l0|l0|op0 l0 N]; try (split; reflexivity).
  - split; [reflexivity|]. cbn. f_equal. induction F as [|o h ls hs (z & E & ->) F IH]; cbn [map]; [reflexivity|]. rewrite E, IH. reflexivity.
  - unfold reference in R. subst t. cbn. rewrite String.eqb_refl. split; reflexivity.
  - unfold reference in R. subst t. cbn. destruct (String.eqb_spec x self); [contradiction|]. split; reflexivity.
  - unfold reference in R. subst t. split; reflexivity.
  - destruct (translated_cases keys index self (bare op0 l0)) as [[_ E]|[I _]]; [rewrite E; split; reflexivity|]. cbn [bare li_op] in I. contradiction.
Qed.
Lemma meaning_agrees {V LV} builtin keys self index (sem : semantics V place LV) truth blank : agrees builtin keys self index (meaning_of builtin keys self index (machine_words sem truth blank)) (machine_words sem truth blank).
Proof.
  constructor; [|reflexivity|reflexivity]. intros c op l i args w N H. cbn [meaning_of jw_do machine_words o_do].
  assert (Same : forall j j', li_op j = li_op j' -> li_lits j = li_lits j' -> li_op j' <> "PUSH [tag]" -> cfg_denote sem (cins_of j) args w = cfg_denote sem (cins_of j') args w).
  { intros j j' E1 E2 N'. unfold cfg_denote, cfg_imm. cbn [cins_of c_op c_lit c_out c_in]. rewrite E1, E2. destruct (String.eqb_spec (li_op j') "PUSH [tag]"); [contradiction|]. reflexivity. }
  destruct builtin.
  - destruct H as [-> ->]. apply Same; [reflexivity|reflexivity|exact N].
  - apply stands_translated in H as [E1 E2]. apply Same; [exact E1|exact E2|]. rewrite <- E1.
    destruct (translated_cases keys (index c) self (bare op l)) as [[_ E]|[_ I]]; [rewrite E; exact N|]. intros Q. rewrite Q in I. cbn in I. repeat (destruct I as [I|I]; [discriminate I|]). exact I.
Qed.

(** The file is read and the code that is generated does what the file says, if
    the parsed object is in the form that the passes need and the layouts, ids
    and specifications found pass the check of C52. *)
Theorem file_compiled_keeps_meaning_partial : forall builtin keys name o, jobject_ok builtin keys o ->
  exists ob index, parse_object builtin keys name o = Ok ob /\ (builtin = false -> forall c, numbered keys o c (index c)) /\
  forall split_ops order trees ob' tags res dummy fuel code,
  source_ok ob -> inlining_order ob order -> (forall f, called_once ob f -> ~ calls ob f f) -> trees_of_blocks trees ->
  (forall f, In f (map fst (ob_functions ob)) -> ~ In f ["return"; "revert"; "stop"; "selfdestruct"]) ->
  preprocess split_ops order trees ob = Ok (ob', tags) ->
  generatedb ob' tags res dummy fuel = true ->
  traverse_cfg fuel (tag_numbers tags) (emitted_component (t_main (translation_for ob' res))) (emitted_functions (translation_for ob' res)) = Ok code ->
  forall (V LV : Type) (sem : semantics V place LV) val truth tag_of, machine_like sem val tag_of (translation_for ob' res) (tag_numbers tags) ->
  forall blank w stack regs (D : jwords V (place -> LV)),
  agrees builtin keys name index D (machine_words sem truth blank) ->
  let machine := At 0 {| m_stack := stack; m_world := w; m_regs := regs |} in
  let R := registers_of (translation_for ob' res) in
  let program := program_of ob' in
  (forall n s, csteps sem truth blank n program (Run None None (k_start (g_main program)) blank w []) = Some s -> spares sem val R program s) ->
  (forall op args w', jstops D o w op args w' ->
     exists k w'', esteps sem truth tag_of k code machine = Some (Stopped op args w'') /\ forall l, ~ in_registers R l -> w'' l = w' l)
  /\ (jgoes_on D o w -> forall k, exists pc m, esteps sem truth tag_of k code machine = Some (At pc m)).
Proof.
  intros builtin keys name o H. destruct (parsed_does_the_same_partial builtin keys name o H) as (ob & P & index & Nb & Same). exists ob, index. split; [exact P|]. split; [exact Nb|].
  intros so order trees ob' tags res dummy fuel code SO IO NR TB PF E GE TC V LV sem val truth tag_of ML blank w st regs D Ag machine R program Sp.
  destruct (compile_checked_keeps_meaning_partial so order trees ob ob' tags res dummy fuel code SO IO NR TB PF E GE TC V LV sem val truth tag_of ML blank w st regs Sp) as (H1 & H2).
  destruct (Same V _ D _ Ag w) as (S1 & S2). split.
  - intros op args w' J. apply H1. apply S1. exact J.
  - intros G. apply H2. apply S2. exact G.
Qed.
Print Assumptions file_compiled_keeps_meaning_partial.

(** The loop of C52, from its file. *)
Definition count_file : jobject := {| jo_blocks := Some
  [ParseFile.blk "Block0" [ParseFile.ins ["n"] "dec_1" ["0x03"]] [] (ParseFile.jump "Block1");
   ParseFile.blk "Block1" [ParseFile.phi "i" ["n"; "m"]; ParseFile.ins ["c"] "iszero" ["i"]] ["Block0"; "Block2"] (ParseFile.cond "Block2" "Block3" "c");
   ParseFile.blk "Block2" [ParseFile.ins ["m"] "dec_1" ["i"]] ["Block1"] (ParseFile.jump "Block1");
   ParseFile.blk "Block3" [ParseFile.ins [] "sstore" ["0x00"; "i"]; ParseFile.ins [] "stop" []] ["Block1"] (ParseFile.ends "Terminated")];
  jo_functions := [("dec_1", {| jf_args := ["n"]; jf_entry := "Block0"; jf_blocks := [ParseFile.blk "Block0" [ParseFile.ins ["m"] "sub" ["n"; "0x01"]] [] (ParseFile.returns ["m"])] |})] |}.
Definition count_parsed : cobject := match parse_object false [] "C" count_file with Ok ob => ob | Raise _ => count_object end.
Lemma count_file_ok : jobject_ok false [] count_file.
Proof.
  assert (B : forall ids id phis rest entries x, Forall (fun i => operation i = "PhiFunction" /\ length (ParseSpec.results i) = 1) phis -> Forall (fun i => operation i <> "PhiFunction") rest ->
    Forall (jinstr_ok false [] ["dec_1"]) (phis ++ rest) -> jexit_ok ids x -> jblock_ok false [] ["dec_1"] ids (ParseFile.blk id (phis ++ rest) entries x)).
  { intros ids id phis rest entries x H1 H2 H3 H4. constructor; [discriminate|discriminate|exists phis, rest; auto|exists x; auto]. }
  assert (In_ : forall op outs args, ~ In op ["functionReturn"; "PUSH [tag]"; "LiteralAssignment"; "linkersymbol"; "memoryguard"; "datasize"; "dataoffset"] -> startswith "verbatim" op = false ->
    length outs <= 1 \/ (In op ["dec_1"] /\ contains "_" op = true) -> jinstr_ok false [] ["dec_1"] (ParseFile.ins outs op args)).
  { intros op outs args N V R. cbn in N. constructor; cbn; [repeat split; discriminate|repeat split; [intros ->; tauto|intros ->; tauto|exact V]|intros ->; tauto|exact R|].
    intros _. constructor; cbn; [intros ->; tauto|intros ->; tauto|intros [<-|[<-|[]]]; tauto]. }
  constructor.
  - split; [discriminate|]. constructor.
    + repeat (apply Forall_cons); [..|apply Forall_nil].
      * apply (B _ _ [] [_]); [constructor|repeat constructor; discriminate|repeat constructor; apply In_; settled || (left; cbn; lia)|eapply xo_jump; [reflexivity..|settled]].
      * apply (B _ _ [_] [_]); [repeat constructor|repeat constructor; discriminate| |eapply xo_cond; [reflexivity..|settled]].
        constructor; [|repeat constructor; apply In_; settled || (left; cbn; lia)].
        constructor; cbn; [repeat split; discriminate|repeat split; discriminate|discriminate|left; lia|]. intros _. constructor; cbn; [discriminate|discriminate|intros [Q|[Q|[]]]; discriminate].
      * apply (B _ _ [] [_]); [constructor|repeat constructor; discriminate|repeat constructor; apply In_; settled || (left; cbn; lia)|eapply xo_jump; [reflexivity..|settled]].
      * apply (B _ _ [] [_; _]); [constructor|repeat constructor; discriminate|repeat constructor; apply In_; settled || (left; cbn; lia)|eapply xo_end; [reflexivity|cbn; tauto|settled]].
    + cbn. repeat constructor; settled.
    + exists "Block0". repeat split.
  - intros f k [E|[]]. injection E as <- <-. constructor; cbn [jf_blocks jf_entry].
    + repeat (apply Forall_cons); [..|apply Forall_nil].
      apply (B _ _ [] [_]); [constructor|repeat constructor; discriminate|repeat constructor; apply In_; settled || (left; cbn; lia)|eapply xo_return; [reflexivity..|settled]].
    + cbn. repeat constructor; settled.
    + exists "Block0". repeat split.
  - split; [repeat constructor; settled|]. intros f [<-|[]]. settled.
Qed.
Definition parsed_preprocessed : cobject * list (string * nat) :=
  match preprocess [] ["dec_1"] start_trees count_parsed with Ok p => p | Raise _ => (count_parsed, []) end.
Definition parsed_layouts : list (option string * string * (list string * list string * list string * list string * bool * list Z)) :=
  [ (None, "C_Block0f", ([], ["v0"], ["3"; "0x03"; "4"], ["PUSH [TAG]_1"; "PUSH_0"; "PUSH [TAG]_0"], true, []));
    (None, "C_Block0s", (["v0"], ["v0"], ["1"; "v0"], ["PUSH [TAG]_0"], true, []));
    (None, "C_Block1", (["v1"], ["v1"], ["2"; "v2"; "v1"], ["DUP1"; "ISZERO_0"; "PUSH [TAG]_0"], true, []));
    (None, "C_Block2f", (["v1"], ["v3"], ["3"; "v1"; "5"], ["PUSH [TAG]_1"; "SWAP1"; "PUSH [TAG]_0"], true, []));
    (None, "C_Block2s", (["v3"], ["v3"], ["1"; "v3"], ["PUSH [TAG]_0"], true, []));
    (None, "C_Block3", (["v1"], ["v1"], ["v1"], ["DUP1"; "PUSH0_0"; "SSTORE_0"], true, []));
    (Some "dec_1", "dec_1_Block0", (["v4"; "out_dec_1"], [], ["out_dec_1"; "v5"], ["VSET(v4)"; "PUSH_0"; "VGET(v4)"; "SUB_0"; "SWAP1"], false, [128; 128]%Z)) ].
Definition parsed_found : findings := found_in (fst parsed_preprocessed) parsed_layouts.
Definition parsed_translation := translation_for (fst parsed_preprocessed) parsed_found.

(** All the hypotheses, what the file does and what the code does. *)
Example count_file_meets : jobject_ok false [] count_file /\ parse_object false [] "C" count_file = Ok count_parsed /\ exists code,
  source_ok count_parsed /\ inlining_order count_parsed ["dec_1"] /\ (forall f, called_once count_parsed f -> ~ calls count_parsed f f) /\ trees_of_blocks start_trees /\
  preprocess [] ["dec_1"] start_trees count_parsed = Ok parsed_preprocessed /\
  generatedb (fst parsed_preprocessed) (snd parsed_preprocessed) parsed_found [] 6 = true /\
  traverse_cfg 6 (tag_numbers (snd parsed_preprocessed)) (emitted_component (t_main parsed_translation)) (emitted_functions parsed_translation) = Ok code /\
  machine_like small_sem (fun z => z) (fun z => Some z) parsed_translation (tag_numbers (snd parsed_preprocessed)) /\
  (forall s, spares small_sem (fun z => z) (registers_of parsed_translation) (program_of (fst parsed_preprocessed)) s) /\
  (forall index, exists D w', agrees false [] "C" index D (machine_words small_sem (fun z => negb (z =? 0)%Z) (fun _ => 0%Z)) /\
     jstops D count_file (fun _ => 9%Z) "STOP" [] w' /\ w' (Slot 0) = 0%Z) /\
  (exists k w'', esteps small_sem (fun z => negb (z =? 0)%Z) (fun z => Some z) k code (At 0 {| m_stack := [8%Z]; m_world := fun _ => 9%Z; m_regs := fun _ => 0%Z |})
     = Some (Stopped "STOP" [] w'') /\ w'' (Slot 0) = 0%Z).
Proof.
  split; [exact count_file_ok|]. split; [vm_compute; reflexivity|].
  assert (SO : source_ok count_parsed) by (apply sourceb_sound; vm_compute; reflexivity).
  eexists. split; [exact SO|]. split; [apply (orderb_sound _ _ (fun _ _ => false) (so_object _ SO)); [discriminate|vm_compute; reflexivity]|].
  split. { intros f _ C. apply (ranked_calls _ (rank_in ["dec_1"])) in C; [lia|vm_compute; reflexivity]. }
  split; [exact start_trees_ok|]. split; [vm_compute; reflexivity|]. split; [vm_compute; reflexivity|]. split; [vm_compute; reflexivity|]. split.
  { apply small_translation; [vm_compute; reflexivity|]. intros r Hr. change (In r [128; 128]%Z) in Hr. destruct Hr as [<-|[<-|[]]]; reflexivity. }
  split. { intros s. rewrite <- (translation_source (fst parsed_preprocessed) parsed_found). apply small_spares. vm_compute. reflexivity. }
  split.
  - intros index. exists (meaning_of false [] "C" index (machine_words small_sem (fun z => negb (z =? 0)%Z) (fun _ => 0%Z))). eexists. split; [apply meaning_agrees|].
    split; [eexists _, 20; split; [vm_compute; reflexivity|vm_compute; reflexivity]|reflexivity].
  - exists 78. eexists. split; [vm_compute; reflexivity|reflexivity].
Qed.
