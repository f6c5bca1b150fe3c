(** Specification side: footprints of operations, well-formed block
    specifications, and "the dependencies order every conflicting pair". *)
From Coq Require Import Relations.
From Verif Require Import Base Lexical SymExecModel AsmModel MachineSpec.

Definition outputs (p : list instr) : list string := flat_map i_outpt p.

(** Every argument is a source variable or the result of an earlier operation. *)
Fixpoint defs_before_uses (p : list instr) : bool :=
  match p with
  | [] => true
  | i :: p' => forallb (fun x => negb (mem x (outputs (i :: p')))) (i_inpt i)
               && defs_before_uses p'
  end.

(** Pushes carry the immediate that the code generator expects. *)
Definition push_ok (i : instr) : bool :=
  if String.eqb (i_disasm i) "PUSH0" then list_eqb (i_inpt i) []
  else if String.eqb (i_disasm i) "PUSH" then
    list_eqb (i_inpt i) [] &&
    match i_value i with Some (PInt z :: _) => (0 <=? z)%Z | _ => false end
  else if String.eqb (i_disasm i) "PUSH [TAG]" then
    list_eqb (i_inpt i) [] &&
    match i_outpt i with [o] => match py_int o with Some z => (0 <=? z)%Z | None => false end | _ => false end
  else match i_value i with Some [] => false | _ => true end.

(** An operation is not spelled like a stack operation. *)
Definition name_ok (s : string) : bool :=
  negb (is_stack_op s) && negb (String.eqb s "NOP").

Definition wf_sfs (s : sfs) : bool :=
  ensure_ids_are_unique (s_instrs s)
  && ensure_stack_vars_are_unique (s_instrs s)
  && defs_before_uses (s_instrs s)
  && forallb (fun x => negb (mem x (outputs (s_instrs s)))) (s_src s)
  && forallb (fun i => name_ok (i_id i) && name_ok (i_disasm i)
                       && negb (String.eqb (i_disasm i) "PUSH [tag]") && push_ok i) (s_instrs s).

(** Register pseudo-operations whose variable name the code generator cannot
    confuse with a PUSH. *)
Definition ids_ok (ids : list string) : bool :=
  forallb (fun id => negb (is_stack_op id && contains "PUSH" id)) ids.

Section Footprint.
Context {V Loc LV : Type}.
Variable sem : semantics V Loc LV.

(** Which world locations an operation reads and writes, given its arguments. *)
Record footprint := {
  reads : instr -> list V -> Loc -> Prop;
  writes : instr -> list V -> Loc -> bool
}.
Variable fp : footprint.

(** The semantics of an operation agrees with its footprint and signature. *)
Record respects (i : instr) : Prop := {
  rsp_outs : forall args w1 w2, (forall l, reads fp i args l -> w1 l = w2 l) ->
    fst (op_denote sem i args w1) = fst (op_denote sem i args w2);
  rsp_writes : forall args w1 w2, (forall l, reads fp i args l -> w1 l = w2 l) ->
    forall l, writes fp i args l = true ->
    snd (op_denote sem i args w1) l = snd (op_denote sem i args w2) l;
  rsp_frame : forall args w l, writes fp i args l = false ->
    snd (op_denote sem i args w) l = w l;
  rsp_comm : forall a b w, i_comm i = true -> op_denote sem i [a; b] w = op_denote sem i [b; a] w;
  rsp_nout : forall args w, length args = length (i_inpt i) ->
    length (fst (op_denote sem i args w)) = length (i_outpt i);
  rsp_nin : prim_arity sem (i_disasm i) (imm i) = length (i_inpt i);
  rsp_flag : forall args l, writes fp i args l = true ->
    i_storage i = true /\ contains "GAS" (i_disasm i) = false
}.

(** Two operations conflict: same location, at least one write. *)
Definition conflict (i j : instr) (ai aj : list V) : Prop :=
  exists l, (writes fp i ai l = true /\ (reads fp j aj l \/ writes fp j aj l = true))
            \/ (reads fp i ai l /\ writes fp j aj l = true).

(** [deps] (transitively) order every pair of conflicting operations of the
    program [p] run with final variable values [e]. *)
Definition deps_cover (deps : list (string * string)) (p : list instr) (e : string -> V) : Prop :=
  forall n m i j, n < m -> nth_error p n = Some i -> nth_error p m = Some j ->
    conflict i j (map e (i_inpt i)) (map e (i_inpt j)) ->
    clos_trans string (fun a b => In (a, b) deps) (i_id i) (i_id j).

(** Every VGET reads a register that was set before in the block, or that
    already held the variable's value. *)
Definition vgets_ok (ids : list string) (regs0 e : string -> V) : Prop :=
  forall pre id post x, ids = pre ++ id :: post -> vget_arg id = Some x ->
    (exists id', In id' pre /\ vset_arg id' = Some x) \/ regs0 x = e x.
End Footprint.
Arguments footprint : clear implicits.
