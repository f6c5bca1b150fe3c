(** C52: from the object given to the code emitted. *)
From Verif Require Import Base Lexical SymExecModel AsmModel MachineSpec FootprintSpec DepsModel GreedyTailModel SpecModel SpecSem SpecDce BlockSpec EmitModel EmitSpec RegsSpec ProgSem ProgSpec ProgProps.
From Verif Require Import UtilModel UtilProps LiveModel CfgModel CfgSpec RenameModel JumpModel JumpSpec CombineModel ObjCombineSpec ObjCombineProps ObjSem ObjProgram ObjRenameModel ObjRenameSpec ObjRenameProps ObjSsaSpec ObjInlineModel ObjDriverSpec
  InlineDriverModel ObjDriver ObjDriverProps ObjLayoutSpec ConstModel ConstSpec ObjFrontModel ObjFront ObjFrontProps CompileSpec CompileOrigin CompileProofs.
Open Scope string_scope. Open Scope list_scope.

(** What the passes leave is a program that can be translated. *)
Lemma preprocess_named so order trees ob ob' tags : source_ok ob -> inlining_order ob order -> (forall f, called_once ob f -> ~ calls ob f f) -> trees_of_blocks trees ->
  preprocess so order trees ob = Ok (ob', tags) -> exists ob2, object_ok ob2 /\ named ob2 /\ insert_and_split ob2 = Ok (ob', tags).
Proof.
  intros SO IO NR TB E.
  destruct (all_inlined (rename_variables ob) order (ren_object ob SO) (ren_ssa ob SO) (ren_calls ob SO) (ren_order ob order IO)) as (ob1 & E1 & CO & FN & OO1 & SS1 & CA1 & LO1 & NA1).
  { intros f O C. apply (ren_once ob) in O. apply (ren_calls_calls ob) in C. exact (NR f O C). }
  specialize (LO1 (ren_layout ob SO)). destruct (ready ob1 OO1 SS1 CA1 LO1) as (RD & CM & SP).
  destruct (combined_object_ok_partial so ob1 OO1 RD CM SP) as (ob2 & E2 & OO2 & _). exists ob2. split; [exact OO2|]. split.
  - apply (combined_named so ob1 ob2 CM E2), (inlined_named ob1 SS1 CA1). intros c x D. apply NA1 in D as (c' & D). exact (new_name ob SO c' x D).
  - destruct (JumpProps.jumps_and_calls_placed_partial ob2 OO2) as (ob3 & tags3 & E3 & _).
    destruct (PhiArity.placed_phis ob2 ob3 tags3 OO2 E3) as (PM & ND & CS). { apply (PhiArity.combine_phis so ob1 ob2 CM E2). intros c g K x b i L I. exact (lo_arity ob1 LO1 c g x b i K L I). }
    unfold preprocess in E. rewrite E1 in E. cbn [bind] in E. rewrite E2 in E. cbn [bind] in E. rewrite E3 in E. cbn [bind fst snd] in E. rewrite (ConstProps.constants_unchanged (trees ob3) ob3 ND PM (fun c g x K => TB ob3 c g x K (CS c g K))) in E. cbn [bind] in E. congruence.
Qed.

(** Whenever the later stages have found layouts and ids for the blocks (with the
    conditions of [generated], which can be checked once they have been found)
    and the emission succeeds, the machine stops, from any stack, for the reason,
    with the words and the state with which the object given stops, and never
    stops when it does not.  Values can be kept in words of memory that the
    preprocessed program does not use; only in those words can the states differ.
    Not covered: that the later stages find something, and "invalid". *)
Theorem compile_keeps_meaning_partial : forall split_ops order trees ob ob' tags res dummy fuel code,
  source_ok ob -> inlining_order ob order -> (forall f, called_once ob f -> ~ calls ob f f) -> trees_of_blocks trees ->
  (forall f, In f (map fst (ob_functions ob)) -> ~ In f ["return"; "revert"; "stop"; "selfdestruct"]) ->
  preprocess split_ops order trees ob = Ok (ob', tags) ->
  generated ob' tags res dummy fuel ->
  traverse_cfg fuel (tag_numbers tags) (emitted_component (t_main (translation_for ob' res))) (emitted_functions (translation_for ob' res)) = Ok code ->
  forall (V LV : Type) (sem : semantics V place LV) val truth tag_of, machine_like sem val tag_of (translation_for ob' res) (tag_numbers tags) ->
  forall blank w stack regs,
  let machine := At 0 {| m_stack := stack; m_world := w; m_regs := regs |} in
  let R := registers_of (translation_for ob' res) in
  let program := program_of ob' in
  (* the program does not use the words of memory that the code uses *)
  (forall n s, csteps sem truth blank n program (Run None None (k_start (g_main program)) blank w []) = Some s -> spares sem val R program s) ->
  (forall op args w', stops (machine_words sem truth blank) ob w op args w' ->
     exists k w'', esteps sem truth tag_of k code machine = Some (Stopped op args w'') /\ forall l, ~ in_registers R l -> w'' l = w' l)
  /\ (goes_on (machine_words sem truth blank) ob w -> forall k, exists pc m, esteps sem truth tag_of k code machine = Some (At pc m)).
Proof.
  intros so order trees ob ob' tags res dummy fuel code SO IO NR TB PF E GE TC V LV sem val truth tag_of ML blank w st regs machine R program SP.
  destruct (preprocess_named so order trees ob ob' tags SO IO NR TB E) as (ob2 & OO2 & NA2 & E2).
  destruct (preprocess_keeps_meaning_partial so order trees ob SO IO NR TB) as (ob3 & tags3 & E3 & FN & H). rewrite E in E3. injection E3 as <- <-.
  assert (PF' : forall f, In f (map fst (ob_functions ob')) -> ~ In f ["return"; "revert"; "stop"; "selfdestruct"]) by (intros f I; apply PF; now apply FN).
  pose proof (generated_translated ob2 ob' tags OO2 NA2 E2 res dummy fuel GE PF') as HT. pose proof (generated_emittable ob2 ob' tags OO2 E2 res dummy fuel GE) as EM.
  destruct (H V place LV sem truth blank blank w) as (H1 & H2). unfold program in SP. rewrite <- (translation_source ob' res) in H1, H2, SP.
  destruct (program_simulated_partial _ _ _ _ _ _ _ sem truth blank tag_of val HT EM TC ML blank w st regs SP) as (S1 & _). split.
  - intros op args w' S. destruct (H1 op args w' S) as (n & C). exact (S1 n op args w' C).
  - intros S. exact (program_diverges_partial _ _ _ _ _ _ _ sem truth blank tag_of val HT EM TC ML blank w st regs SP (H2 S)).
Qed.
Print Assumptions compile_keeps_meaning_partial.
