(** From the file to the code, with conditions on the file only. *)
From Verif Require Import Base Lexical SymExecModel AsmModel MachineSpec FootprintSpec DepsModel GreedyTailModel SpecModel SpecSem SpecDce BlockSpec EmitModel EmitSpec RegModel RegsSpec ProgSem ProgSpec ProgProofs ProgProps.
From Verif Require Import UtilModel UtilProps LiveModel CfgModel CfgSpec CfgProps RenameModel JumpModel JumpSpec CombineModel ObjCombineSpec ObjCombineProps ObjSem ObjProgram ObjRenameModel ObjRenameSpec ObjSsaSpec ObjInlineModel ObjDriverSpec
  InlineDriverModel ObjDriver ObjLayoutSpec ConstModel ConstSpec ObjFrontModel ObjFront ObjFrontProps CompileSpec CompileOrigin CompileProofs CompileProps CompileCheck.
From Verif Require Import ParseModel ParseSpec ParseProofs ParseTranslate ParseComponent ParseSim ParseFile ParseCompile ParseReady SourceSpec ParseSource.
Notation lookup := UtilModel.lookup.
Notation component := JumpSpec.component.
Notation block_name := ParseModel.block_name.
Open Scope string_scope. Open Scope list_scope.

Section Calls.
Variables (builtin : bool) (keys : list (string * nat)) (name : string) (o : jobject).
Hypothesis OK : jobject_ok builtin keys o.
Hypothesis PF : plain_file name o.
Variable ob : cobject.
Hypothesis P : parse_object builtin keys name o = Ok ob.
Notation fnames := (map fst (jo_functions o)).
Notation pre_of := (prefix_of name).
Notation im := (image_of builtin keys name o).
Lemma call_from f c x n : In f fnames -> call_at ob f c x n -> exists z, x = block_name (pre_of c) z /\ jcall_at o f c z n.
Proof.
  intros Hf (k & i & B & N & Op). unfold block_at in B. destruct (blocks_at ob c) as [g|] eqn:G; [|discriminate]. apply component_blocks in G. pose proof (comes builtin keys name o OK PF ob P c g G) as CF.
  destruct (cf_block _ _ _ _ _ _ CF _ _ B) as (z & b & -> & Bz & [(e & X & _ & Is) _] & _). exists z. split; [reflexivity|]. exists b. rewrite Is, map_app, map_map in N.
  destruct (Nat.lt_ge_cases n (length (jinstrs b))) as [Lt|Ge].
  - rewrite nth_error_app1 in N by (rewrite map_length; exact Lt). rewrite nth_error_map in N. destruct (nth_error (jinstrs b) n) as [j|] eqn:Nj; [|discriminate]. injection N as <-. exists j. split; [exact Bz|]. split; [reflexivity|].
    rewrite <- Op in Hf |- *. symmetry. exact (proj1 (call_same builtin keys name o OK c j Hf)).
  - exfalso. rewrite nth_error_app2 in N by (rewrite map_length; exact Ge). apply nth_error_In in N. destruct (ending_cases e) as [[Q _]|[_ Q]]; rewrite Q in N; [destruct N|]. fold (the_return e) in N. cbn [map] in N. rewrite im_return in N. destruct N as [<-|[]].
    subst f. exact (return_not_function builtin keys o OK Hf).
Qed.
Lemma call_to f c z n : In f fnames -> jcall_at o f c z n -> call_at ob f c (block_name (pre_of c) z) n.
Proof.
  intros Hf (b & j & B & N & Op). destruct (components_parsed builtin keys name o OK) as (ob0 & E & _ & _). assert (Kc : known o c).
  { destruct c as [f0|]; [|exact I]. unfold jblock_at in B. cbn [jblocks] in B. destruct (lookup f0 (jo_functions o)) as [k0|] eqn:L0; [exists k0; exact L0|discriminate]. }
  destruct (object_parsed builtin keys name o OK) as (ob1 & E1 & Fa & _). rewrite P in E1. injection E1 as <-. destruct (Fa c Kc) as (g & G & _). pose proof G as C. apply component_blocks in C. pose proof (comes builtin keys name o OK PF ob P c g C) as CF.
  destruct (cf_image _ _ _ _ _ _ CF z b B) as (k & L & [(e & X & _ & Is) _] & _). exists k, (im c (plain j)). split; [unfold block_at; rewrite G; exact L|]. split.
  - rewrite Is, map_app, map_map. assert (Lt : n < length (jinstrs b)) by (apply nth_error_Some; congruence). rewrite nth_error_app1 by (rewrite map_length; exact Lt). rewrite nth_error_map, N. reflexivity.
  - destruct (image_op builtin keys name o OK c (plain j)) as [[Q _]|[Q _]]; [rewrite Q; exact Op|]. exfalso. apply (proj2 (jk_names _ _ _ OK) _ Hf). cbn [plain li_op] in Q. rewrite Op in Q. cbn in Q |- *. tauto.
Qed.
Lemma calls_from p f : calls ob p f -> jcalls o p f.
Proof.
  induction 1 as [p f b n H If|p q f _ IH1 _ IH2]; [|eapply jcalls_trans; eassumption]. rewrite (functions_same builtin keys name o OK ob P) in If. apply call_from in H as (z & _ & J); [|exact If]. eapply jcalls_here; eassumption.
Qed.
Lemma calls_to p f : jcalls o p f -> calls ob p f.
Proof.
  induction 1 as [p f b n H If|p q f _ IH1 _ IH2]; [|eapply calls_trans; eassumption]. eapply calls_here; [apply call_to; eassumption|]. rewrite (functions_same builtin keys name o OK ob P). exact If.
Qed.
Lemma once_from f : called_once ob f -> jcalled_once o f.
Proof.
  intros (If & c & x & n & H & U). rewrite (functions_same builtin keys name o OK ob P) in If. split; [exact If|]. destruct (call_from f c x n If H) as (z & -> & J). exists c, z, n. split; [exact J|]. intros c' z' n' J'.
  destruct (U c' _ n' (call_to f c' z' n' If J')) as (-> & E & ->). apply block_name_inj in E. auto.
Qed.
Lemma order_from order : jorder o order -> inlining_order ob order.
Proof.
  intros [H1 H2 H3]. assert (FS := functions_same builtin keys name o OK ob P). constructor; [exact H1| |].
  - intros f. rewrite FS, H2. split; intros (If & c & z & n & H); (split; [exact If|]); [exists c, (block_name (pre_of c) z), n; apply call_to; assumption|]. destruct (call_from f c z n If H) as (z0 & _ & J). eauto.
  - intros f p b n If Ip H Nc. destruct (call_from f (Some p) b n (proj1 (proj1 (H2 f) If)) H) as (z & _ & J). apply (H3 f p z n If Ip J). intros Q. apply Nc. apply calls_to. exact Q.
Qed.
End Calls.

(** The file is read, the passes succeed, and whatever layouts, ids and
    specifications pass the check of C52, the code does what the file says. *)
Theorem file_code_keeps_meaning_partial : forall builtin keys name o order, jobject_ok builtin keys o -> plain_file name o -> sound_file o -> jorder o order -> no_recursion o ->
  (forall f, In f (map fst (jo_functions o)) -> ~ In f ["return"; "revert"; "stop"; "selfdestruct"]) ->
  exists ob index, parse_object builtin keys name o = Ok ob /\ (builtin = false -> forall c, numbered keys o c (index c)) /\
  forall split_ops trees, trees_of_blocks trees ->
  exists ob' tags, preprocess split_ops order trees ob = Ok (ob', tags) /\
  forall res dummy fuel code,
  generatedb ob' tags res dummy fuel = true ->
  traverse_cfg fuel (tag_numbers tags) (emitted_component (t_main (translation_for ob' res))) (emitted_functions (translation_for ob' res)) = Ok code ->
  forall (V LV : Type) (sem : semantics V place LV) val truth tag_of, machine_like sem val tag_of (translation_for ob' res) (tag_numbers tags) ->
  forall blank w stack regs (D : jwords V (place -> LV)),
  agrees builtin keys name index D (machine_words sem truth blank) ->
  let machine := At 0 {| m_stack := stack; m_world := w; m_regs := regs |} in
  let R := registers_of (translation_for ob' res) in
  let program := program_of ob' in
  (forall n s, csteps sem truth blank n program (Run None None (k_start (g_main program)) blank w []) = Some s -> spares sem val R program s) ->
  (forall op args w', jstops D o w op args w' ->
     exists k w'', esteps sem truth tag_of k code machine = Some (Stopped op args w'') /\ forall l, ~ in_registers R l -> w'' l = w' l)
  /\ (jgoes_on D o w -> forall k, exists pc m, esteps sem truth tag_of k code machine = Some (At pc m)).
Proof.
  intros builtin keys name o order OK PF SF JO NR NL. destruct (file_compiled_keeps_meaning_partial builtin keys name o OK) as (ob & index & E & Nb & H). exists ob, index. split; [exact E|]. split; [exact Nb|].
  intros so trees TB. assert (SO : source_ok ob) by exact (source_fine builtin keys name o OK PF SF ob E). assert (IO : inlining_order ob order) by exact (order_from builtin keys name o OK PF ob E order JO).
  assert (NR' : forall f, called_once ob f -> ~ calls ob f f) by (intros f O C; exact (NR f (once_from builtin keys name o OK PF ob E f O) (calls_from builtin keys name o OK PF ob E f f C))).
  destruct (preprocess_keeps_meaning_partial so order trees ob SO IO NR' TB) as (ob' & tags & Ep & _). exists ob', tags. split; [exact Ep|].
  intros res dummy fuel code. apply (H so order trees ob' tags res dummy fuel code SO IO NR' TB); [|exact Ep]. rewrite (functions_same builtin keys name o OK ob E). exact NL.
Qed.
Print Assumptions file_code_keeps_meaning_partial.
