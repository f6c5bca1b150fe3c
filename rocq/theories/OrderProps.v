(** The order of the functions is found by the code itself: C49 and C52 without an
    order given. *)
From Verif Require Import Base Lexical SymExecModel AsmModel MachineSpec FootprintSpec DepsModel GreedyTailModel SpecModel SpecSem SpecDce BlockSpec EmitModel EmitSpec RegModel RegsSpec ProgSem ProgSpec ProgProofs ProgProps.
From Verif Require Import UtilModel UtilProps LiveModel CfgModel CfgSpec CfgProps RenameModel JumpModel JumpSpec CombineModel ObjCombineSpec ObjCombineProps ObjSem ObjProgram ObjRenameModel ObjRenameSpec ObjSsaSpec ObjInlineModel ObjDriverSpec
  InlineDriverModel ObjDriver ObjLayoutSpec ConstModel ConstSpec ObjFrontModel ObjFront ObjFrontProps CompileSpec CompileOrigin CompileProofs CompileProps CompileCheck.
From Verif Require Import ParseModel ParseSpec ParseProofs ParseTranslate ParseComponent ParseSim ParseFile ParseCompile ParseReady SourceSpec ParseSource.
From Verif Require Import SourceCompile ObjDriverProps OrderModel OrderSpec OrderProofs.
From Verif Require ObjExamples.
Notation lookup := UtilModel.lookup.
Open Scope string_scope. Open Scope list_scope.

(** Any order of the components that networkx may give is one in which functions
    come before those that call them. *)
Theorem computed_order_is_inlining_order : forall ob components, object_ok ob -> sorted_components (function_deps (function_calls ob)) components -> inlining_order ob (original_sort components).
Proof. intros ob cs OO H. exact (components_order ob OO cs H). Qed.
Print Assumptions computed_order_is_inlining_order.

(** The graph has such an order, whether or not functions call each other. *)
Theorem computed_order_exists : forall ob, exists components, sorted_components (function_deps (function_calls ob)) components.
Proof.
  intros ob. exists (found (function_deps (function_calls ob))). apply found_sorted.
  - rewrite deps_nodes. apply called_names_once.
  - intros u v E. rewrite deps_nodes. apply called_names_in. split; [intros []|]. apply deps_edge in E. apply E.
Qed.
Print Assumptions computed_order_exists.

(** The pass, with the order it computes. *)
Theorem inlining_pass_keeps_meaning : forall ob components, object_ok ob -> ssa ob -> calls_ok ob -> sorted_components (function_deps (function_calls ob)) components ->
  (forall f, called_once ob f -> ~ calls ob f f) ->
  exists ob', inline_functions (original_sort components) ob = Ok ob' /\ carries_over ob ob'
  /\ (forall f, In f (map fst (ob_functions ob')) <-> In f (map fst (ob_functions ob)) /\ ~ called_once ob f)
  /\ object_ok ob' /\ ssa ob' /\ calls_ok ob'.
Proof. intros ob cs OO SS CA H NR. exact (inline_functions_keeps_meaning ob _ OO SS CA (components_order ob OO cs H) NR). Qed.
Print Assumptions inlining_pass_keeps_meaning.

Lemma order_back ob order : source_ok ob -> inlining_order (rename_variables ob) order -> inlining_order ob order.
Proof.
  intros SO H. constructor.
  - apply H.
  - intros f. rewrite (io_called _ _ H f), (ren_fns ob). split; intros (A & c & b & n & C); (split; [exact A|]); exists c, b, n; now apply (ren_call_at ob).
  - intros f p b n I J C N. apply (ren_call_at ob) in C. apply (io_sorted _ _ H f p b n I J C). intros Q. apply N. now apply (ren_calls_calls ob).
Qed.

(** From the file to the code: the file is read, its functions have an order, and
    with any order that networkx may give the passes succeed and the code that
    passes the check of C52 does what the file says. *)
Theorem file_program_keeps_meaning_partial : forall builtin keys name o, jobject_ok builtin keys o -> plain_file name o -> sound_file o -> no_recursion o ->
  (forall f, In f (map fst (jo_functions o)) -> ~ In f ["return"; "revert"; "stop"; "selfdestruct"]) ->
  exists ob index, parse_object builtin keys name o = Ok ob /\ (builtin = false -> forall c, numbered keys o c (index c)) /\
  let graph := function_deps (function_calls (rename_variables ob)) in
  (exists components, sorted_components graph components) /\
  forall components, sorted_components graph components ->
  forall split_ops trees, trees_of_blocks trees ->
  exists ob' tags, preprocess split_ops (original_sort components) trees ob = Ok (ob', tags) /\
  forall res dummy fuel code,
  generatedb ob' tags res dummy fuel = true ->
  traverse_cfg fuel (tag_numbers tags) (emitted_component (t_main (translation_for ob' res))) (emitted_functions (translation_for ob' res)) = Ok code ->
  forall (V LV : Type) (sem : semantics V place LV) val truth tag_of, machine_like sem val tag_of (translation_for ob' res) (tag_numbers tags) ->
  forall blank w stack regs (D : jwords V (place -> LV)),
  agrees builtin keys name index D (machine_words sem truth blank) ->
  let machine := At 0 {| m_stack := stack; m_world := w; m_regs := regs |} in
  let R := registers_of (translation_for ob' res) in
  let program := program_of ob' in
  (forall n s, csteps sem truth blank n program (Run None None (k_start (g_main program)) blank w []) = Some s -> spares sem val R program s) ->
  (forall op args w', jstops D o w op args w' ->
     exists k w'', esteps sem truth tag_of k code machine = Some (Stopped op args w'') /\ forall l, ~ in_registers R l -> w'' l = w' l)
  /\ (jgoes_on D o w -> forall k, exists pc m, esteps sem truth tag_of k code machine = Some (At pc m)).
Proof.
  intros builtin keys name o OK PF SF NR NL. destruct (file_compiled_keeps_meaning_partial builtin keys name o OK) as (ob & index & E & Nb & H). exists ob, index. split; [exact E|]. split; [exact Nb|]. cbv zeta. split; [apply computed_order_exists|].
  intros cs SC so trees TB. assert (SO : source_ok ob) by exact (source_fine builtin keys name o OK PF SF ob E).
  assert (IO : inlining_order ob (original_sort cs)) by exact (order_back ob _ SO (components_order _ (ren_object ob SO) cs SC)).
  assert (NR' : forall f, called_once ob f -> ~ calls ob f f) by (intros f O C; exact (NR f (once_from builtin keys name o OK PF ob E f O) (calls_from builtin keys name o OK PF ob E f f C))).
  destruct (preprocess_keeps_meaning_partial so (original_sort cs) trees ob SO IO NR' TB) as (ob' & tags & Ep & _). exists ob', tags. split; [exact Ep|].
  intros res dummy fuel code. apply (H so (original_sort cs) trees ob' tags res dummy fuel code SO IO NR' TB); [|exact Ep]. rewrite (functions_same builtin keys name o OK ob E). exact NL.
Qed.
Print Assumptions file_program_keeps_meaning_partial.

(* --- concrete cases --- *)
(** A function called by another one. *)
Example two_in_order : function_deps (function_calls ObjExamples.count_object) = [("next_2", []); ("fail_1", ["next_2"])]
  /\ sorted_components (function_deps (function_calls ObjExamples.count_object)) [["fail_1"]; ["next_2"]].
Proof.
  split; [vm_compute; reflexivity|]. assert (Q : found (function_deps (function_calls ObjExamples.count_object)) = [["fail_1"]; ["next_2"]]) by (vm_compute; reflexivity). rewrite <- Q. apply found_sorted.
  - rewrite deps_nodes. apply called_names_once.
  - intros u v E. rewrite deps_nodes. apply called_names_in. split; [intros []|]. apply deps_edge in E. apply E.
Qed.
(** Functions that call each other: the component may list them in any order, and
    with one of these orders the pass raises. *)
Lemma cycle_components : sorted_components (function_deps (function_calls cycle_object)) [["p_1"; "r_1"; "q_1"]].
Proof.
  assert (G : function_deps (function_calls cycle_object) = [("q_1", ["r_1"]); ("p_1", ["q_1"]); ("r_1", ["p_1"])]) by (vm_compute; reflexivity). rewrite G. clear G. constructor.
  - repeat constructor; cbn; intuition discriminate.
  - intros x. cbn. tauto.
  - intros x y X Y. split; [|intros _; exists ["p_1"; "r_1"; "q_1"]; cbn in *; tauto]. intros _. split; apply (through_path _ ["q_1"; "p_1"; "r_1"]); cbn in X, Y; intuition (subst; vm_compute; reflexivity).
  - intros u v E N. exfalso. apply N. exists ["p_1"; "r_1"; "q_1"]. destruct E as (l & I & H). cbn in I. repeat (destruct I as [I|I]; [injection I as <- <-; cbn in H; destruct H as [<-|[]]; cbn; tauto|]). destruct I.
Qed.
Theorem inlining_pass_recursion_refuted : ~ (forall ob components, object_ok ob -> ssa ob -> calls_ok ob -> sorted_components (function_deps (function_calls ob)) components ->
  exists ob', inline_functions (original_sort components) ob = Ok ob').
Proof.
  intros H. destruct cycle_ok as (A & B & C). destruct (H cycle_object _ A B C cycle_components) as (ob' & E). vm_compute in E. discriminate.
Qed.
Print Assumptions inlining_pass_recursion_refuted.
