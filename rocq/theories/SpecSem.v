(** Specification side: what the instructions of a block of the control-flow
    graph mean when executed one after the other, and which blocks are
    considered.  Nothing here mentions how the block specification is built. *)
From Verif Require Import Base Lexical SymExecModel AsmModel MachineSpec DepsModel SpecModel.
Open Scope string_scope. Open Scope list_scope.

(** Operations that carry a literal (built-ins translated by
    src/parser/cfg_instruction.py:278-383). *)
Definition literal_ops : list string := ["pushlib"; "push #[$]"; "push [$]"; "pushimmutable"; "assignimmutable"].

Section CfgSem.
Context {V Loc LV : Type}.
Variable sem : semantics V Loc LV.

(** Value of an argument: a hexadecimal literal or a variable. *)
Definition aval (e : string -> V) (v : string) : V :=
  if startswith "0x" v then match py_int16 v with Some z => word_of_Z sem z | None => e v end else e v.

(** The immediate of the instruction, as it appears in the assembly item. *)
Definition cfg_imm (i : cins) : option string :=
  if mem (c_op i) literal_ops then
    match c_lit i with
    | Some (l :: _) => Some (upper (if is_hex_push (upper (c_op i)) then to_hex_default (PStr l) else l))
    | _ => None
    end
  else None.

Definition cfg_denote (i : cins) (args : list V) (w : Loc -> LV) : list V * (Loc -> LV) :=
  if String.eqb (c_op i) "LiteralAssignment" then (args, w)
  else if String.eqb (c_op i) "push" then
    match c_lit i with
    | Some (l :: _) => match py_int16 l with Some z => ([word_of_Z sem z], w) | None => ([], w) end
    | _ => ([], w)
    end
  else if String.eqb (c_op i) "PUSH [tag]" then
    match c_out i with
    | t :: _ => match py_int t with Some z => ([tag_word sem z], w) | None => ([], w) end
    | [] => ([], w)
    end
  else prim sem (upper (c_op i)) (cfg_imm i) args w.

Definition exec_cins (i : cins) (ew : (string -> V) * (Loc -> LV)) : (string -> V) * (Loc -> LV) :=
  let (e, w) := ew in
  let (outs, w') := cfg_denote i (map (aval e) (c_in i)) w in
  (bind_vars e (c_out i) outs, w').
Definition exec_cfg (p : list cins) (ew : (string -> V) * (Loc -> LV)) : (string -> V) * (Loc -> LV) :=
  fold_left (fun s i => exec_cins i s) p ew.
End CfgSem.

(** Names a program may use for its variables: not a literal, not the marker
    of an unused stack slot, not one of the compiler's own s0, s1, ... *)
Definition user_name (x : string) : Prop :=
  startswith "0x" x = false /\ x <> "bottom" /\ forall n, x <> ("s" ++ str_nat n)%string.

Definition push_ops : list string := ["push"; "pushlib"; "push #[$]"; "push [$]"; "pushimmutable"; "pushsize"].

(** The instructions covered. *)
Inductive supported (i : cins) : Prop :=
| SupLit v x : c_op i = "LiteralAssignment" -> c_in i = [v] -> c_out i = [x] -> startswith "0x" v = true -> supported i
| SupPush l z x : c_op i = "push" -> c_in i = [] -> c_out i = [x] -> c_lit i = Some [l] ->
    py_int16 l = Some z -> z <> 0%Z -> supported i
| SupTag t z : c_op i = "PUSH [tag]" -> c_in i = [] -> c_out i = [t] -> py_int t = Some z -> (0 <= z)%Z -> supported i
| SupPushOp l ls : In (c_op i) ["pushlib"; "push #[$]"; "push [$]"; "pushimmutable"; "pushsize"] ->
    c_lit i = Some (l :: ls) -> c_in i = [] -> length (c_out i) = 1 -> supported i
| SupPlain : mem (upper (c_op i)) opcode_keys = true -> mem (c_op i) opcode_keys = false ->
    startswith "PUSH" (upper (c_op i)) = false -> upper (c_op i) <> "POP" -> lower (upper (c_op i)) = c_op i ->
    (c_op i = "assignimmutable" -> exists l ls, c_lit i = Some (l :: ls)) ->
    supported i.

(** A block in static single assignment form. *)
Record ssa_block (instrs : list cins) (initial : list string) : Prop := {
  ssa_supported : forall i, In i instrs -> supported i;
  ssa_outs : NoDup (flat_map c_out instrs);
  ssa_out_names : forall i x, In i instrs -> In x (c_out i) -> user_name x;
  ssa_ins : forall i x, In i instrs -> In x (c_in i) ->
    (startswith "0x" x = true /\ exists z, py_int16 x = Some z /\ (0 <= z)%Z) \/ user_name x;
  ssa_defs : forall pre i post x, instrs = pre ++ i :: post -> In x (c_in i) -> ~ In x (flat_map c_out (i :: post));
  ssa_initial : forall x, In x initial -> user_name x /\ ~ In x (flat_map c_out instrs);
  ssa_push : forall i j m n, nth_error instrs m = Some i -> nth_error instrs n = Some j -> m <> n ->
    In (c_op i) push_ops -> c_op i = c_op j -> c_lit i <> c_lit j;
  ssa_push_pos : forall i l z, In i instrs -> c_op i = "push" -> c_lit i = Some l ->
    forall v, In v l -> py_int16 v = Some z -> (0 <= z)%Z
}.

(** The stack needed before the instruction that ends the block, when the
    stack after it is [final]: its arguments in place of its results. *)
Definition before_split (split : option cins) (final target : list string) : Prop :=
  match split with
  | None => target = final
  | Some i => exists rest, final = c_out i ++ rest /\ target = c_in i ++ rest
  end.
