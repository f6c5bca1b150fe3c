(** Specification side of C44: the program of ProgSem.v that an object with
    jumps, tags and split calls stands for, and on which objects it is claimed to
    do what the object did before. *)
From Verif Require Import Base Lexical SymExecModel MachineSpec DepsModel SpecSem UtilModel LiveModel CfgModel JumpModel ProgSem JumpSpec ObjSem.
Open Scope string_scope. Open Scope list_scope.

(** The literals of an instruction: [get_literal_args], src/parser/cfg_instruction.py:263-270. *)
Definition cins_of (i : linstr) : cins :=
  {| c_op := li_op i; c_in := li_ins i; c_out := li_outs i; c_lit := li_lits i |}.
Definition is_phi_instr (i : linstr) : bool := String.eqb (li_op i) "PhiFunction".
(** src/parser/cfg_block.py:167-168 ([phi_instructions]) and 337-344
    ([instructions_to_synthesize]) *)
Definition phi_pairs (b : cblock) : list (string * list string) :=
  flat_map (fun i => map (fun o => (o, li_ins i)) (li_outs i)) (filter is_phi_instr (cb_instrs b)).
Definition to_synthesize (b : cblock) : list linstr :=
  filter (fun i => negb (is_phi_instr i)) (match cb_split b with Some _ => removelast (cb_instrs b) | None => cb_instrs b end).
Definition pblock_of (b : cblock) : pblock :=
  {| p_phis := phi_pairs b; p_entries := cb_entries b; p_instrs := map cins_of (to_synthesize b);
     p_last := option_map cins_of (cb_split b); p_type := cb_type b; p_jump_to := cb_jump_to b; p_falls_to := cb_falls_to b |}.
(** Parameters in the order of the stack: src/parser/parser.py:169. *)
Definition pcomponent_of (params : list string) (g : clist) : ProgSem.component :=
  {| k_params := params; k_start := match cl_start g with Some s => s | None => "" end;
     k_blocks := map (fun kb => (fst kb, pblock_of (snd kb))) (cl_blocks g) |}.
Definition program_of (ob : cobject) : program :=
  {| g_main := pcomponent_of [] (ob_main ob);
     g_functions := map (fun fk => (fst fk, pcomponent_of (rev (fn_args (snd fk))) (fn_blocks (snd fk)))) (ob_functions ob) |}.

(** The meaning of the instructions of the object when the operations of the
    machine mean [sem]. *)
Section Words.
Context {V Loc LV : Type}.
Variable sem : semantics V Loc LV.
Variable truth : V -> bool.
Variable blank : string -> V.
Definition machine_words : words V (Loc -> LV) :=
  {| o_do := fun i args w => cfg_denote sem (cins_of i) args w;
     o_word := fun x => match py_int16 x with Some z => word_of_Z sem z | None => blank x end;
     o_truth := truth |}.
End Words.

(** Objects whose variables cannot be taken for tags. *)
Record object_readable (ob : cobject) : Prop := {
  (* the name of the return address is new *)
  or_returns : forall f k r, lookup f (ob_functions ob) = Some k -> return_name ob (Some f) = Some r -> ~ In r (fn_args k);
  or_params : forall f k x, lookup f (ob_functions ob) = Some k -> In x (fn_args k) -> numeral x = false;
  or_outs : forall c g x b i o, component ob c g -> lookup x (cl_blocks g) = Some b -> In i (cb_instrs b) -> In o (li_outs i) -> numeral o = false;
  (* literals can be read *)
  or_literals : forall c g x b i v, component ob c g -> lookup x (cl_blocks g) = Some b -> In i (cb_instrs b) -> In v (li_ins i) -> startswith "0x" v = true -> py_int16 v <> None;
  or_conds : forall c g x b v, component ob c g -> lookup x (cl_blocks g) = Some b -> cb_cond b = Some v -> startswith "0x" v = true -> py_int16 v <> None;
  or_phis : forall c g x b i, component ob c g -> lookup x (cl_blocks g) = Some b -> In i (cb_instrs b) -> li_op i = "PhiFunction" -> exists o, li_outs i = [o];
  (* "invalid" is dropped by the passes that follow (see DESIGN.md) *)
  or_invalid : forall c g x b i, component ob c g -> lookup x (cl_blocks g) = Some b -> In i (cb_instrs b) -> li_op i <> "invalid";
  (* the main code, and blocks nothing follows, only end with calls that do not
     return (see [main_exit_call_refuted]) *)
  or_exit : forall c g x b pre i, component ob c g -> lookup x (cl_blocks g) = Some b -> cb_type b = "mainExit" \/ successors b = [] ->
    cb_instrs b = pre ++ [i] -> In (li_op i) (map fst (ob_functions ob)) -> return_name ob (Some (li_op i)) = None
}.
