(** C53: registers and recursion.  The registers of a function are words of memory
    at fixed addresses, so a recursive call overwrites those of its caller. *)
From Verif Require Import Base Lexical SymExecModel AsmModel MachineSpec FootprintSpec DepsModel GreedyTailModel SpecModel SpecSem SpecDce BlockSpec EmitModel EmitSpec RegModel RegsSpec ProgSem ProgSpec ProgProofs ProgProps ProgExample.
From Verif Require Import UtilModel UtilProps LiveModel CfgModel CfgSpec RemoveProps RenameModel JumpModel JumpSpec JumpExamples CombineModel ObjCombineSpec ObjCombineProps ObjSem ObjProgram ObjExamples ObjRenameModel ObjRenameSpec ObjRenameProps ObjSsaSpec ObjInlineModel ObjDriverSpec
  InlineDriverModel ObjDriver ObjDriverProps ObjLayoutSpec ConstModel ConstSpec ObjFrontModel ObjFront ObjFrontProps CompileSpec CompileOrigin CompileProofs CompileProps CompileCheck CompileExample.
Open Scope string_scope. Open Scope list_scope.

(** What the later stages have found (C52), without the condition that a function
    called at the end of a block does not use the registers that hold values then. *)
Definition ignoring_registers (tr : translation) : translation :=
  {| t_main := t_main tr;
     t_functions := map (fun fk => (fst fk, {| t_params := t_params (snd fk); t_return := t_return (snd fk); t_start := t_start (snd fk); t_blocks := t_blocks (snd fk); t_regs := [] |})) (t_functions tr) |}.
Definition generated_ignoring (ob : cobject) (tags : list (string * nat)) (res : findings) (dummy : list string) (fuel : nat) : Prop :=
  generated_with (ignoring_registers (translation_for ob res)) ob tags res dummy fuel.

(** The component [c] calls the function [f]; a call in [c] can lead to the
    execution of [c']. *)
Definition calls_function (ob : cobject) (c : option string) (f : string) : Prop :=
  exists g x b i, component ob c g /\ lookup x (cl_blocks g) = Some b /\ cb_split b = Some i /\ li_op i = f /\ In f (map fst (ob_functions ob)).
Inductive leads (ob : cobject) : option string -> option string -> Prop :=
| Leads_here c : leads ob c c
| Leads_call c f c' : calls_function ob c f -> leads ob (Some f) c' -> leads ob c c'.
Definition no_recursion (ob : cobject) : Prop := forall c f, calls_function ob c f -> ~ leads ob (Some f) c.

(** Each component has registers of its own ([own], as in C19), accesses no
    others, and a component is charged with the registers of those it can lead to. *)
Record own_registers (ob : cobject) (res : findings) (own : option string -> list Z) : Prop := {
  or_apart : forall c c' r, In r (own c) -> In r (own c') -> c = c';
  or_accessed : forall c g x b, component ob c g -> lookup x (cl_blocks g) = Some b -> incl (r_slots (res c x)) (own c) /\ incl (map fst (r_held (res c x))) (own c);
  or_regs : forall c g r, component ob c g -> In r (fd_regs res c) -> exists c', leads ob c c' /\ In r (own c')
}.

Lemma calls_functionb_ok ob c f : match (match c with None => Some (ob_main ob) | Some f => option_map fn_blocks (lookup f (ob_functions ob)) end) with
    | Some g => existsb (fun xb => match lookup (fst xb) (cl_blocks g) with Some b => match cb_split b with Some i => String.eqb (li_op i) f | None => false end | None => false end) (cl_blocks g)
    | None => false end && mem f (map fst (ob_functions ob)) = true -> calls_function ob c f.
Proof.
  intros H. apply andb_true_iff in H as (H & M). apply mem_In in M.
  assert (K : exists g, component ob c g /\ existsb (fun xb => match lookup (fst xb) (cl_blocks g) with Some b => match cb_split b with Some i => String.eqb (li_op i) f | None => false end | None => false end) (cl_blocks g) = true).
  { destruct c as [h|]; [|exists (ob_main ob); split; [reflexivity|exact H]]. destruct (lookup h (ob_functions ob)) as [k|] eqn:L; [|discriminate]. exists (fn_blocks k). split; [exists k; auto|exact H]. }
  destruct K as (g & K & E). apply existsb_exists in E as ((x & b0) & _ & E). cbn [fst] in E. destruct (lookup x (cl_blocks g)) as [b|] eqn:L; [|discriminate]. destruct (cb_split b) as [i|] eqn:S; [|discriminate].
  apply String.eqb_eq in E. exists g, x, b, i. auto.
Qed.
Lemma lookup_ignoring ob res f k : lookup f (t_functions (translation_for ob res)) = Some k ->
  In f (map fst (ob_functions ob)) /\ (exists fn, lookup f (ob_functions ob) = Some fn) /\ t_regs k = fd_regs res (Some f) /\ exists k', lookup f (t_functions (ignoring_registers (translation_for ob res))) = Some k'.
Proof.
  unfold ignoring_registers, translation_for. cbn [t_functions]. induction (ob_functions ob) as [|[h fn] l IH]; cbn [map lookup fst snd]; [discriminate|].
  destruct (String.eqb_spec h f) as [->|N].
  - intros [= <-]. split; [left; reflexivity|]. split; [exists fn; reflexivity|]. split; [reflexivity|]. eexists. reflexivity.
  - intros L. destruct (IH L) as (A & B & C). split; [right; exact A|]. split; assumption.
Qed.
Lemma own_registers_generated ob tags res dummy fuel own : own_registers ob res own -> no_recursion ob ->
  generated_ignoring ob tags res dummy fuel -> generated ob tags res dummy fuel.
Proof.
  intros [O1 O2 O3] NR [H1 H2 H3 H4 H5 H6 H7 H8 H9 H10 H11 H12 H13]. constructor; auto.
  intros c g x b x' b' K L S L' r u Hu. destruct (H7 c g x b x' b' K L S L' r u Hu) as (v & (A & B & C) & P). exists v. split; [|exact P]. split; [exact A|]. split; [exact B|].
  intros i k E F. destruct (lookup_ignoring _ _ _ _ F) as (I & (fn & Lf) & R & k' & F'). split; [|exact (proj2 (C i k' E F'))].
  rewrite R. intros Hr. assert (KF : component ob (Some (c_op i)) (fn_blocks fn)) by (exists fn; auto). destruct (O3 _ _ _ KF Hr) as (c' & Ld & Own).
  assert (Hc : In r (own c)).
  { destruct (O2 c g x b K L) as (Q1 & Q2). unfold held_after in A. cbn [tblock_for t_ids t_slots t_held] in A. destruct (track _ _ _) as [h|] eqn:T; [|destruct A].
    destruct (track_In _ _ _ _ _ _ T A) as [Q|Q]; auto. }
  rewrite (O1 _ _ _ Own Hc) in Ld. cbn [tblock_for t_block pblock_of p_last] in E. destruct (cb_split b) as [j|] eqn:Sp; [|discriminate]. injection E as <-. cbn [cins_of c_op] in *.
  apply (NR c (li_op j)); [|exact Ld]. exists g, x, b, j. auto.
Qed.

(** C53: without recursion, functions whose registers are their own do not disturb
    each other, and the code does what the object given does. *)
Theorem own_registers_keep_meaning_partial : forall split_ops order trees ob ob' tags res dummy fuel code own,
  source_ok ob -> inlining_order ob order -> (forall f, called_once ob f -> ~ calls ob f f) -> trees_of_blocks trees ->
  (forall f, In f (map fst (ob_functions ob)) -> ~ In f ["return"; "revert"; "stop"; "selfdestruct"]) ->
  preprocess split_ops order trees ob = Ok (ob', tags) ->
  generated_ignoring ob' tags res dummy fuel -> own_registers ob' res own -> no_recursion ob' ->
  traverse_cfg fuel (tag_numbers tags) (emitted_component (t_main (translation_for ob' res))) (emitted_functions (translation_for ob' res)) = Ok code ->
  forall (V LV : Type) (sem : semantics V place LV) val truth tag_of, machine_like sem val tag_of (translation_for ob' res) (tag_numbers tags) ->
  forall blank w stack regs,
  let machine := At 0 {| m_stack := stack; m_world := w; m_regs := regs |} in
  let R := registers_of (translation_for ob' res) in
  let program := program_of ob' in
  (forall n s, csteps sem truth blank n program (Run None None (k_start (g_main program)) blank w []) = Some s -> spares sem val R program s) ->
  (forall op args w', stops (machine_words sem truth blank) ob w op args w' ->
     exists k w'', esteps sem truth tag_of k code machine = Some (Stopped op args w'') /\ forall l, ~ in_registers R l -> w'' l = w' l)
  /\ (goes_on (machine_words sem truth blank) ob w -> forall k, exists pc m, esteps sem truth tag_of k code machine = Some (At pc m)).
Proof.
  intros so order trees ob ob' tags res dummy fuel code own SO IO NR TB PF E GE OR NC.
  exact (compile_keeps_meaning_partial so order trees ob ob' tags res dummy fuel code SO IO NR TB PF E (own_registers_generated _ _ _ _ _ _ OR NC GE)).
Qed.
Print Assumptions own_registers_keep_meaning_partial.

Definition one_register (f : string) (c : option string) : list Z := if opt_eqb c (Some f) then [128%Z] else [].
Lemma one_register_own ob res f : fd_regs res = (fun _ => [128%Z]) -> calls_function ob None f -> map fst (ob_functions ob) = [f] ->
  forallb (fun cg => forallb (fun xb => inclb (r_slots (res (fst cg) (fst xb))) (one_register f (fst cg)) && inclb (map fst (r_held (res (fst cg) (fst xb)))) (one_register f (fst cg))) (cl_blocks (snd cg))) (components ob) = true ->
  own_registers ob res (one_register f).
Proof.
  intros FR CF FN A. constructor.
  - intros c c' r H H'. unfold one_register in *. destruct (opt_eqb c (Some f)) eqn:Q; [|destruct H]. destruct (opt_eqb c' (Some f)) eqn:Q'; [|destruct H'].
    apply CfgProps.opt_eqb_eq in Q. apply CfgProps.opt_eqb_eq in Q'. congruence.
  - intros c g x b K L. apply component_In in K. apply lookup_In in L.
    rewrite forallb_forall in A. specialize (A _ K). cbn [fst snd] in A. rewrite forallb_forall in A. specialize (A _ L). cbn [fst snd] in A. apply andb_true_iff in A as (A & B). split; apply inclb_ok; assumption.
  - intros c g r K H. rewrite FR in H. exists (Some f). split; [|unfold one_register; cbn [opt_eqb]; rewrite String.eqb_refl; exact H].
    destruct c as [h|]; [|apply Leads_call with f; [exact CF|constructor]].
    destruct K as (k & L & _). apply lookup_In in L. apply (in_map fst) in L. rewrite FN in L. cbn [fst] in L. destruct L as [<-|[]]. constructor.
Qed.

(** The object of C52 meets the hypotheses: [dec] has a register and calls nothing. *)
Example count_own : exists own, own (Some "dec_1") = [128%Z] /\ own_registers (fst count_preprocessed) count_found own /\ no_recursion (fst count_preprocessed) /\
  generated_ignoring (fst count_preprocessed) (snd count_preprocessed) count_found [] 6.
Proof.
  assert (FN : map fst (ob_functions (fst count_preprocessed)) = ["dec_1"]) by (vm_compute; reflexivity).
  exists (one_register "dec_1"). split; [reflexivity|]. split; [|split].
  - apply one_register_own; [reflexivity|apply calls_functionb_ok; vm_compute; reflexivity|vm_compute; reflexivity|vm_compute; reflexivity].
  - assert (N : forall c f, calls_function (fst count_preprocessed) c f -> c = None /\ f = "dec_1").
    { intros c f (g & x & b & i & K & L & S & O & I). rewrite FN in I. destruct I as [<-|[]]. split; [|reflexivity]. apply component_In in K. apply lookup_In in L.
      assert (A : forallb (fun cg => match fst cg with None => true | Some _ => forallb (fun xb => match cb_split (snd xb) with Some i => negb (String.eqb (li_op i) "dec_1") | None => true end) (cl_blocks (snd cg)) end)
        (components (fst count_preprocessed)) = true) by (vm_compute; reflexivity).
      rewrite forallb_forall in A. specialize (A _ K). cbn [fst snd] in A. destruct c; [|reflexivity]. rewrite forallb_forall in A. specialize (A _ L). cbn [snd] in A. rewrite S, O in A. discriminate A. }
    intros c f C. destruct (N c f C) as (-> & ->). intros Ld. inversion Ld as [|? f ? C' _]; subst. destruct (N _ _ C') as (Q & _). discriminate Q.
  - unfold generated_ignoring. apply generated_withb_ok. vm_compute. reflexivity.
Qed.

(** sstore(0, f(2)); stop, with f(n) = if n = 0 then n else n - f(n - 1).  The
    argument of [f] is kept in the word of memory at 128 during the inner call. *)
Definition rec_object : cobject := {|
  ob_main := parsed [ trm "Block0" [ins "f_1" ["0x02"] ["x"]; ins "sstore" ["0x00"; "x"] []; ins "stop" [] []] ];
  ob_functions := [ ("f_1", {| fn_args := ["n"]; fn_blocks := parsed
    [ cnd "f_Block0" "c" "f_More" "f_Last" [ins "iszero" ["n"] ["c"]];
      ret "f_More" ["m"] [ins "sub" ["n"; "0x01"] ["p"]; ins "f_1" ["p"] ["q"]; ins "sub" ["n"; "q"] ["m"]];
      ret "f_Last" ["n"] [] ] |}) ] |}.
Definition rec_preprocessed : cobject * list (string * nat) :=
  match preprocess [] ["f_1"] start_trees rec_object with Ok p => p | Raise _ => (rec_object, []) end.
Definition rec_layouts : list (option string * string * (list string * list string * list string * list string * bool * list Z)) :=
  [ (None, "Block0f", ([], ["v0"], ["1"; "0x02"; "3"], ["PUSH [TAG]_1"; "PUSH_0"; "PUSH [TAG]_0"], true, []));
    (None, "Block0s", (["v0"], ["v0"], ["v0"], ["DUP1"; "PUSH0_0"; "SSTORE_0"], true, []));
    (Some "f_1", "f_Block0", (["v1"; "out_f_1"], ["v1"; "out_f_1"], ["2"; "v2"; "v1"; "out_f_1"], ["DUP1"; "ISZERO_0"; "PUSH [TAG]_0"], false, []));
    (Some "f_1", "f_Last", (["v1"; "out_f_1"], [], ["out_f_1"; "v1"], ["SWAP1"], false, []));
    (Some "f_1", "f_Moref", (["v1"; "out_f_1"], ["v4"; "out_f_1"], ["1"; "v3"; "4"; "out_f_1"], ["VSET(v1)"; "PUSH [TAG]_1"; "PUSH_0"; "VGET(v1)"; "SUB_0"; "PUSH [TAG]_0"], false, [128; 128]%Z));
    (Some "f_1", "f_Mores", (["v4"; "out_f_1"], [], ["out_f_1"; "v5"], ["VGET(v1)"; "SUB_0"; "SWAP1"], false, [128%Z])) ].
Definition rec_found : findings :=
  let found := found_in (fst rec_preprocessed) rec_layouts in
  {| fd_regs := fd_regs found;
     fd_block := fun c x => let r := found c x in
       {| r_initial := r_initial r; r_final := r_final r; r_target := r_target r; r_spec := r_spec r; r_ids := r_ids r; r_junk := r_junk r; r_slots := r_slots r;
          r_held := if String.eqb x "f_Mores" then [(128%Z, "v1")] else [] |} |}.
Definition rec_translation : translation := translation_for (fst rec_preprocessed) rec_found.

Lemma esteps_end {V Loc LV} (sem : semantics V Loc LV) truth tag_of code op args w : forall k s, esteps sem truth tag_of k code s = Some (Stopped op args w) ->
  forall k' op' args' w', esteps sem truth tag_of k' code s = Some (Stopped op' args' w') -> w' = w.
Proof.
  induction k as [|k IH]; intros s H [|k'] op' args' w' H'; cbn [esteps] in H, H'.
  - congruence.
  - injection H as ->. discriminate H'.
  - injection H' as ->. discriminate H.
  - destruct (estep _ _ _ _ _) as [s'|]; [|discriminate]. exact (IH s' H k' _ _ _ H').
Qed.

Lemma rec_call1 : call_at rec_object "f_1" None "Block0" 0.
Proof. eexists _, _. split; [vm_compute; reflexivity|]. split; reflexivity. Qed.
Lemma rec_call2 : call_at rec_object "f_1" (Some "f_1") "f_More" 1.
Proof. eexists _, _. split; [vm_compute; reflexivity|]. split; reflexivity. Qed.
Lemma rec_own : own_registers (fst rec_preprocessed) rec_found (one_register "f_1").
Proof. apply one_register_own; [reflexivity|apply calls_functionb_ok; vm_compute; reflexivity|vm_compute; reflexivity|vm_compute; reflexivity]. Qed.

(** C53: with recursion the statement is false, although each function has
    registers of its own: the inner call overwrites the argument of the outer one. *)
Theorem registers_recursion_refuted : ~ (forall split_ops order trees ob ob' tags res dummy fuel code own,
  source_ok ob -> inlining_order ob order -> (forall f, called_once ob f -> ~ calls ob f f) -> trees_of_blocks trees ->
  preprocess split_ops order trees ob = Ok (ob', tags) ->
  generated_ignoring ob' tags res dummy fuel -> own_registers ob' res own ->
  traverse_cfg fuel (tag_numbers tags) (emitted_component (t_main (translation_for ob' res))) (emitted_functions (translation_for ob' res)) = Ok code ->
  forall (V LV : Type) (sem : semantics V place LV) val truth tag_of, machine_like sem val tag_of (translation_for ob' res) (tag_numbers tags) ->
  forall blank w stack regs,
  let machine := At 0 {| m_stack := stack; m_world := w; m_regs := regs |} in
  let R := registers_of (translation_for ob' res) in
  let program := program_of ob' in
  (forall n s, csteps sem truth blank n program (Run None None (k_start (g_main program)) blank w []) = Some s -> spares sem val R program s) ->
  forall op args w', stops (machine_words sem truth blank) ob w op args w' ->
     exists k w'', esteps sem truth tag_of k code machine = Some (Stopped op args w'') /\ forall l, ~ in_registers R l -> w'' l = w' l).
Proof.
  intros H.
  assert (SO : source_ok rec_object) by (apply sourceb_sound; vm_compute; reflexivity).
  assert (Ex : exists code w1 w2, 
    traverse_cfg 6 (tag_numbers (snd rec_preprocessed)) (emitted_component (t_main rec_translation)) (emitted_functions rec_translation) = Ok code /\
    stops (machine_words small_sem (fun z => negb (z =? 0)%Z) (fun _ => 0%Z)) rec_object (fun _ => 9%Z) "STOP" [] w1 /\
    esteps small_sem (fun z => negb (z =? 0)%Z) (fun z => Some z) 64 code (At 0 {| m_stack := []; m_world := fun _ => 9%Z; m_regs := fun _ => 0%Z |}) = Some (Stopped "STOP" [] w2) /\
    w1 (Slot 0) = 1%Z /\ w2 (Slot 0) = 0%Z).
  { do 3 eexists. split; [vm_compute; reflexivity|]. split; [eexists _, 18; split; [vm_compute; reflexivity|vm_compute; reflexivity]|]. split; [vm_compute; reflexivity|]. split; reflexivity. }
  destruct Ex as (code & w1 & w2 & TC & St & Es & E1 & E2).
  assert (GE : generated_ignoring (fst rec_preprocessed) (snd rec_preprocessed) rec_found [] 6) by (unfold generated_ignoring; apply generated_withb_ok; vm_compute; reflexivity).
  destruct (H [] ["f_1"] start_trees rec_object (fst rec_preprocessed) (snd rec_preprocessed) rec_found [] 6 code (one_register "f_1")) with
    (sem := small_sem) (val := fun z : Z => z) (truth := fun z => negb (z =? 0)%Z) (tag_of := fun z : Z => Some z) (blank := fun _ : string => 0%Z) (w := fun _ : place => 9%Z) (stack := @nil Z) (regs := fun _ : string => 0%Z)
    (op := "STOP") (args := @nil Z) (w' := w1) as (k & w'' & Q & W).
  - exact SO.
  - apply (orderb_sound _ _ (fun f p => String.eqb f "f_1" && String.eqb p "f_1") (so_object _ SO)); [|vm_compute; reflexivity].
    intros f p Q. apply andb_true_iff in Q as (Q1 & Q2). apply String.eqb_eq in Q1. apply String.eqb_eq in Q2. subst. apply (calls_here _ "f_1" "f_1" "f_More" 1); [exact rec_call2|left; reflexivity].
  - intros f (I & c & b & n & _ & U). destruct I as [<-|[]]. destruct (U _ _ _ rec_call1) as (<- & _). destruct (U _ _ _ rec_call2) as (Q & _). discriminate Q.
  - exact start_trees_ok.
  - vm_compute. reflexivity.
  - exact GE.
  - exact rec_own.
  - exact TC.
  - apply small_translation; [vm_compute; reflexivity|]. intros r Hr. change (In r [128; 128]%Z) in Hr. destruct Hr as [<-|[<-|[]]]; reflexivity.
  - intros n s _. rewrite <- (translation_source (fst rec_preprocessed) rec_found). apply small_spares. vm_compute. reflexivity.
  - exact St.
  - pose proof (esteps_end _ _ _ _ _ _ _ _ _ Es _ _ _ _ Q) as ->. specialize (W (Slot 0)). rewrite E1, E2 in W. discriminate W. intros (r & _ & []).
Qed.
Print Assumptions registers_recursion_refuted.
