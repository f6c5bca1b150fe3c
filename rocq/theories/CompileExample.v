(** C52: the conditions checked, and a concrete object compiled. *)
From Verif Require Import Base Lexical SymExecModel AsmModel MachineSpec FootprintSpec DepsModel GreedyTailModel SpecModel SpecSem SpecDce BlockSpec EmitModel EmitSpec RegModel RegsSpec ProgSem ProgSpec ProgProofs ProgProps ProgExample.
From Verif Require Import UtilModel UtilProps LiveModel CfgModel CfgSpec RemoveProps RenameModel JumpModel JumpSpec JumpExamples CombineModel ObjCombineSpec ObjCombineProps ObjSem ObjProgram ObjExamples ObjRenameModel ObjRenameSpec ObjRenameProps ObjSsaSpec ObjInlineModel ObjDriverSpec
  InlineDriverModel ObjDriver ObjDriverProps ObjLayoutSpec ConstModel ConstSpec ObjFrontModel ObjFront ObjFrontProps CompileSpec CompileOrigin CompileProofs CompileProps CompileCheck.
Open Scope string_scope. Open Scope list_scope.

(** C52 with the conditions computed: whatever the later stages have found, code
    that passes the check does what the object given does. *)
Theorem compile_checked_keeps_meaning_partial : forall split_ops order trees ob ob' tags res dummy fuel code,
  source_ok ob -> inlining_order ob order -> (forall f, called_once ob f -> ~ calls ob f f) -> trees_of_blocks trees ->
  (forall f, In f (map fst (ob_functions ob)) -> ~ In f ["return"; "revert"; "stop"; "selfdestruct"]) ->
  preprocess split_ops order trees ob = Ok (ob', tags) ->
  generatedb ob' tags res dummy fuel = true ->
  traverse_cfg fuel (tag_numbers tags) (emitted_component (t_main (translation_for ob' res))) (emitted_functions (translation_for ob' res)) = Ok code ->
  forall (V LV : Type) (sem : semantics V place LV) val truth tag_of, machine_like sem val tag_of (translation_for ob' res) (tag_numbers tags) ->
  forall blank w stack regs,
  let machine := At 0 {| m_stack := stack; m_world := w; m_regs := regs |} in
  let R := registers_of (translation_for ob' res) in
  let program := program_of ob' in
  (* the program does not use the words of memory that the code uses *)
  (forall n s, csteps sem truth blank n program (Run None None (k_start (g_main program)) blank w []) = Some s -> spares sem val R program s) ->
  (forall op args w', stops (machine_words sem truth blank) ob w op args w' ->
     exists k w'', esteps sem truth tag_of k code machine = Some (Stopped op args w'') /\ forall l, ~ in_registers R l -> w'' l = w' l)
  /\ (goes_on (machine_words sem truth blank) ob w -> forall k, exists pc m, esteps sem truth tag_of k code machine = Some (At pc m)).
Proof.
  intros so order trees ob ob' tags res dummy fuel code SO IO NR TB PF E GE. exact (compile_keeps_meaning_partial so order trees ob ob' tags res dummy fuel code SO IO NR TB PF E (generatedb_ok _ _ _ _ _ GE)).
Qed.
Print Assumptions compile_checked_keeps_meaning_partial.

(** When no value is kept in memory, nothing is asked of the program and the
    states are the same everywhere. *)
Corollary compile_stack_keeps_meaning_partial : forall split_ops order trees ob ob' tags res dummy fuel code,
  source_ok ob -> inlining_order ob order -> (forall f, called_once ob f -> ~ calls ob f f) -> trees_of_blocks trees ->
  (forall f, In f (map fst (ob_functions ob)) -> ~ In f ["return"; "revert"; "stop"; "selfdestruct"]) ->
  preprocess split_ops order trees ob = Ok (ob', tags) ->
  generatedb ob' tags res dummy fuel = true -> registers_of (translation_for ob' res) = [] ->
  traverse_cfg fuel (tag_numbers tags) (emitted_component (t_main (translation_for ob' res))) (emitted_functions (translation_for ob' res)) = Ok code ->
  forall (V LV : Type) (sem : semantics V place LV) val truth tag_of, machine_like sem val tag_of (translation_for ob' res) (tag_numbers tags) ->
  forall blank w stack regs,
  let machine := At 0 {| m_stack := stack; m_world := w; m_regs := regs |} in
  (forall op args w', stops (machine_words sem truth blank) ob w op args w' ->
     exists k w'', esteps sem truth tag_of k code machine = Some (Stopped op args w'') /\ forall l, w'' l = w' l)
  /\ (goes_on (machine_words sem truth blank) ob w -> forall k, exists pc m, esteps sem truth tag_of k code machine = Some (At pc m)).
Proof.
  intros so order trees ob ob' tags res dummy fuel code SO IO NR TB PF E GE NO TC V LV sem val truth tag_of ML blank w st regs machine.
  destruct (compile_checked_keeps_meaning_partial so order trees ob ob' tags res dummy fuel code SO IO NR TB PF E GE TC V LV sem val truth tag_of ML blank w st regs) as (H1 & H2).
  { intros n s _. now apply no_registers_spares. }
  split; [|exact H2]. intros op args w' S. destruct (H1 op args w' S) as (k & w'' & Q & W). exists k, w''. split; [exact Q|]. intros l. apply W. now apply no_registers.
Qed.
Print Assumptions compile_stack_keeps_meaning_partial.

(** i := dec(3); while (i != 0) { i := dec(i) }; sstore(0, i); stop, with dec(n) = n - 1;
    [dec] keeps its argument in the word of memory at 128. *)
Definition count_object : cobject := {|
  ob_main := parsed
    [ jmp "Block0" "Loop" [ins "dec_1" ["0x03"] ["n"]];
      joined ["Block0"; "Body"] (cnd "Loop" "c" "Body" "Exit" [ins "PhiFunction" ["n"; "m"] ["i"]; ins "iszero" ["i"] ["c"]]);
      jmp "Body" "Loop" [ins "dec_1" ["i"] ["m"]];
      trm "Exit" [ins "sstore" ["0x00"; "i"] []; ins "stop" [] []] ];
  ob_functions := [ ("dec_1", {| fn_args := ["n"]; fn_blocks := parsed [ ret "dec_Block0" ["m"] [ins "sub" ["n"; "0x01"] ["m"]] ] |}) ] |}.
Definition count_preprocessed : cobject * list (string * nat) :=
  match preprocess [] ["dec_1"] start_trees count_object with Ok p => p | Raise _ => (count_object, []) end.
(** What is found for the blocks: layouts before and after, layout before the last
    instruction, ids, and registers accessed. *)
Definition count_layouts : list (option string * string * (list string * list string * list string * list string * bool * list Z)) :=
  [ (None, "Block0f", ([], ["v0"], ["3"; "0x03"; "4"], ["PUSH [TAG]_1"; "PUSH_0"; "PUSH [TAG]_0"], true, []));
    (None, "Block0s", (["v0"], ["v0"], ["1"; "v0"], ["PUSH [TAG]_0"], true, []));
    (None, "Loop", (["v1"], ["v1"], ["2"; "v2"; "v1"], ["DUP1"; "ISZERO_0"; "PUSH [TAG]_0"], true, []));
    (None, "Bodyf", (["v1"], ["v3"], ["3"; "v1"; "5"], ["PUSH [TAG]_1"; "SWAP1"; "PUSH [TAG]_0"], true, []));
    (None, "Bodys", (["v3"], ["v3"], ["1"; "v3"], ["PUSH [TAG]_0"], true, []));
    (None, "Exit", (["v1"], ["v1"], ["v1"], ["DUP1"; "PUSH0_0"; "SSTORE_0"], true, []));
    (Some "dec_1", "dec_Block0", (["v4"; "out_dec_1"], [], ["out_dec_1"; "v5"], ["VSET(v4)"; "PUSH_0"; "VGET(v4)"; "SUB_0"; "SWAP1"], false, [128; 128]%Z)) ].
Definition found_in (ob : cobject) (layouts : list (option string * string * (list string * list string * list string * list string * bool * list Z))) : findings := {|
  fd_regs := fun _ => [128%Z]; fd_block := fun c x =>
  let empty := {| s_src := []; s_tgt := []; s_instrs := []; s_deps := [] |} in
  match find (fun e => opt_eqb (fst (fst e)) c && String.eqb (snd (fst e)) x) layouts, block_at ob c x with
  | Some (_, _, (initial, final, target, ids, junk, slots)), Some b =>
      {| r_initial := initial; r_final := final; r_target := target;
         r_spec := match build_spec (p_instrs (pblock_of b)) (p_last (pblock_of b)) initial final with Ok s => s | Raise _ => empty end; r_ids := ids; r_junk := junk; r_slots := slots; r_held := [] |}
  | _, _ => {| r_initial := []; r_final := []; r_target := []; r_spec := empty; r_ids := []; r_junk := false; r_slots := []; r_held := [] |}
  end |}.
Definition count_found : findings := found_in (fst count_preprocessed) count_layouts.
Definition count_translation : translation := translation_for (fst count_preprocessed) count_found.

Definition small_blockb (tb : tblock) : bool :=
  forallb small_ins (p_instrs (t_block tb))
  && match p_last (t_block tb) with Some i => negb (mem (c_op i) ["return"; "revert"; "stop"; "selfdestruct"]) || String.eqb (c_op i) "stop" && list_eqb (c_in i) [] | None => true end.
Definition small_translationb (tr : translation) : bool :=
  forallb (fun k => forallb (fun xt => small_blockb (snd xt)) (t_blocks k)) (t_main tr :: map snd (t_functions tr)).
Lemma small_translation tr tags : small_translationb tr = true -> (forall r, In r (registers_of tr) -> r = 128%Z) -> machine_like small_sem (fun z => z) (fun z => Some z) tr tags.
Proof.
  intros H HR. assert (B : forall c b tb, tblock_of tr c b = Some tb -> small_blockb tb = true).
  { intros c b tb L. unfold tblock_of in L. destruct (tcomponent_of tr c) as [k|] eqn:K; [|discriminate]. unfold small_translationb in H. rewrite forallb_forall in H.
    assert (I : In k (t_main tr :: map snd (t_functions tr))). { destruct c as [f|]; cbn in K; [|injection K as <-; left; reflexivity]. right. apply lookup_In in K. apply in_map_iff. exists (f, k). auto. }
    apply H in I. rewrite forallb_forall in I. apply lookup_In, I in L. exact L. }
  constructor.
  - intros c b tb L. apply B in L. unfold small_blockb in L. apply andb_true_iff in L as (L & _). now apply small_like.
  - intros c b tb i im L E O. apply B in L. unfold small_blockb in L. apply andb_true_iff in L as (_ & L). rewrite E in L. apply mem_In in O. rewrite O in L. cbn [negb orb] in L. apply andb_true_iff in L as (L1 & L2). apply String.eqb_eq in L1. apply list_eqb_eq in L2. rewrite L1, L2. reflexivity.
  - reflexivity.
  - reflexivity.
  - exists (fun r w => w (Byte r)). constructor.
    + intros r r' Hr Hr' N. apply HR in Hr. apply HR in Hr'. congruence.
    + intros r Hr. apply HR in Hr. lia.
    + reflexivity.
    + intros r v w Hr. cbn. rewrite Z.eqb_refl. split; [reflexivity|]. split; [reflexivity|]. intros l Hl. destruct l as [b|b|b|]; try reflexivity.
      destruct (Z.eqb_spec r b) as [->|_]; [|reflexivity]. destruct Hl. cbn. lia.
    + intros r w w' Hr E. apply E. cbn. lia.
    + split; reflexivity.
Qed.
Lemma small_spares tr s : small_translationb tr = true -> spares small_sem (fun z => z) (registers_of tr) (source tr) s.
Proof.
  intros H. destruct s as [c from b e w frames|]; [|exact I]. intros blk e1 Hb _ pre i post E l (r & _ & Hl) D.
  rewrite source_block_of in Hb. destruct (tblock_of tr c b) as [tb|] eqn:Tb; [|discriminate]. injection Hb as <-.
  assert (S : small_ins i = true).
  { unfold tblock_of in Tb. destruct (tcomponent_of tr c) as [k|] eqn:K; [|discriminate]. unfold small_translationb in H. rewrite forallb_forall in H.
    assert (I : In k (t_main tr :: map snd (t_functions tr))). { destruct c as [f|]; cbn in K; [|injection K as <-; left; reflexivity]. right. apply lookup_In in K. apply in_map_iff. exists (f, k). auto. }
    apply H in I. rewrite forallb_forall in I. apply lookup_In, I in Tb. unfold small_blockb in Tb. apply andb_true_iff in Tb as (Tb & _). rewrite forallb_forall in Tb. apply Tb. cbn [snd]. rewrite E. apply in_app_iff. simpl; auto. }
  exact (small_no_memory i _ l r S Hl D).
Qed.

(** All the hypotheses, the stop of the object and the run of the code. *)
Example count_meets : exists code,
  source_ok count_object /\ inlining_order count_object ["dec_1"] /\ (forall f, called_once count_object f -> ~ calls count_object f f) /\ trees_of_blocks start_trees /\
  preprocess [] ["dec_1"] start_trees count_object = Ok count_preprocessed /\
  generatedb (fst count_preprocessed) (snd count_preprocessed) count_found [] 6 = true /\
  traverse_cfg 6 (tag_numbers (snd count_preprocessed)) (emitted_component (t_main count_translation)) (emitted_functions count_translation) = Ok code /\
  machine_like small_sem (fun z => z) (fun z => Some z) count_translation (tag_numbers (snd count_preprocessed)) /\
  (forall s, spares small_sem (fun z => z) (registers_of count_translation) (program_of (fst count_preprocessed)) s) /\
  (exists w', stops (machine_words small_sem (fun z => negb (z =? 0)%Z) (fun _ => 0%Z)) count_object (fun _ => 9%Z) "STOP" [] w' /\ w' (Slot 0) = 0%Z) /\
  (exists k w'', esteps small_sem (fun z => negb (z =? 0)%Z) (fun z => Some z) k code (At 0 {| m_stack := [8%Z]; m_world := fun _ => 9%Z; m_regs := fun _ => 0%Z |})
     = Some (Stopped "STOP" [] w'') /\ w'' (Slot 0) = 0%Z).
Proof.
  assert (SO : source_ok count_object) by (apply sourceb_sound; vm_compute; reflexivity).
  eexists. split; [exact SO|]. split; [apply (orderb_sound _ _ (fun _ _ => false) (so_object _ SO)); [discriminate|vm_compute; reflexivity]|].
  split. { intros f _ C. apply (ranked_calls _ (rank_in ["dec_1"])) in C; [lia|vm_compute; reflexivity]. }
  split; [exact start_trees_ok|]. split; [vm_compute; reflexivity|]. split; [vm_compute; reflexivity|]. split; [vm_compute; reflexivity|]. split.
  { apply small_translation; [vm_compute; reflexivity|]. intros r Hr. change (In r [128; 128]%Z) in Hr. destruct Hr as [<-|[<-|[]]]; reflexivity. }
  split. { intros s. rewrite <- (translation_source (fst count_preprocessed) count_found). apply small_spares. vm_compute. reflexivity. }
  split.
  - eexists. split; [eexists _, 20; split; [vm_compute; reflexivity|vm_compute; reflexivity]|reflexivity].
  - exists 78. eexists. split; [vm_compute; reflexivity|reflexivity].
Qed.
