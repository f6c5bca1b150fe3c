(** Which translations of programs are considered: every block compiled and
    validated, layouts that agree along the edges, tags that name the targets. *)
From Verif Require Import Base Lexical SymExecModel AsmModel MachineSpec FootprintSpec DepsModel GreedyTailModel SpecModel SpecSem SpecDce BlockSpec
  UtilModel EmitModel RegsSpec ProgSem.
Open Scope string_scope. Open Scope list_scope.

(** A block with the result of its translation: the layouts before and after
    it, its specification, and the ids found for it.  Values can be kept in words
    of memory (registers): [t_slots] has the address of the register for each
    "VGET" and "VSET" of the ids, and [t_held] the registers in use when the block
    is entered, with the variables in them. *)
Record tblock := {
  t_block : pblock;
  t_initial : list string;
  t_final : list string;
  t_target : list string;   (* before the last instruction *)
  t_spec : sfs;
  t_ids : list string;
  t_junk : bool;            (* "admits_junk" *)
  t_slots : list Z;
  t_held : held
}.
(** [t_return] is the parameter with the address to return to; [t_regs] has the
    registers of the component and of the functions it calls. *)
Record tcomponent := { t_params : list string; t_return : option string; t_start : string; t_blocks : list (string * tblock); t_regs : list Z }.
Record translation := { t_main : tcomponent; t_functions : list (string * tcomponent) }.

(** The registers in use when the block ends, and those of the whole program. *)
Definition held_after (b : tblock) : held := match track (t_ids b) (t_slots b) (t_held b) with Some h => h | None => [] end.
Definition registers_of (t : translation) : list Z := flat_map t_regs (t_main t :: map snd (t_functions t)).

(** The program that is translated. *)
Definition source_component (k : tcomponent) : component :=
  {| k_params := t_params k; k_start := t_start k; k_blocks := map (fun p => (fst p, t_block (snd p))) (t_blocks k) |}.
Definition source (t : translation) : program :=
  {| g_main := source_component (t_main t); g_functions := map (fun p => (fst p, source_component (snd p))) (t_functions t) |}.

(** What the generation of the code is given. *)
Definition cinstr_of (i : cins) : cinstr := {| ci_op := c_op i; ci_ins := c_in i; ci_outs := c_out i; ci_literals := c_lit i |}.
Definition phi_instr (p : string * list string) : cinstr :=
  {| ci_op := "PhiFunction"; ci_ins := snd p; ci_outs := [fst p]; ci_literals := None |}.
Definition emitted_block (b : tblock) : eblock :=
  let k := t_block b in
  {| eb_spec := s_instrs (t_spec b); eb_ids := lowered (t_ids b) (t_slots b); eb_type := p_type k; eb_jump_to := p_jump_to k; eb_falls_to := p_falls_to k;
     eb_split := option_map cinstr_of (p_last k);
     eb_instrs := map phi_instr (p_phis k) ++ map cinstr_of (p_instrs k) ++ map cinstr_of (match p_last k with Some i => [i] | None => [] end) |}.
Definition emitted_component (k : tcomponent) : list (string * eblock) * string :=
  (map (fun p => (fst p, emitted_block (snd p))) (t_blocks k), t_start k).
Definition emitted_functions (t : translation) : list (string * (list (string * eblock) * string)) :=
  map (fun p => (fst p, emitted_component (snd p))) (t_functions t).

Definition tcomponent_of (t : translation) (c : option string) : option tcomponent :=
  match c with None => Some (t_main t) | Some f => lookup f (t_functions t) end.
Definition tblock_of (t : translation) (c : option string) (b : string) : option tblock :=
  match tcomponent_of t c with Some k => lookup b (t_blocks k) | None => None end.

(** The block was compiled and the result accepted (C39). *)
Record compiled (b : tblock) : Prop := {
  co_ssa : ssa_block (p_instrs (t_block b)) (t_initial b);
  co_orderable : orderable (p_instrs (t_block b));
  co_target : before_split (p_last (t_block b)) (t_final b) (t_target b);
  co_names : forall v, In v (t_target b) -> layout_name v;
  co_used : loads_used (p_instrs (t_block b)) (t_target b);
  co_spec : build_spec (p_instrs (t_block b)) (p_last (t_block b)) (t_initial b) (t_final b) = Ok (t_spec b);
  co_ids : ids_ok (t_ids b) = true;
  co_accepted : check_execution_from_ids (t_spec b) (t_ids b) (t_junk b) = Ok true;
  co_depth : check_dup_swap 16 (t_ids b) = Ok tt;
  (* values are fetched from the registers that have them *)
  co_registers : track (t_ids b) (t_slots b) (t_held b) <> None;
  co_held : forall r x, In (r, x) (t_held b) -> user_name x /\ ~ In x (flat_map c_out (p_instrs (t_block b)));
  (* the instructions do not transfer control *)
  co_control : forall i, In i (p_instrs (t_block b)) -> ~ In (upper (c_op i)) control_names;
  co_nodup : NoDup (t_initial b);
  co_phis : NoDup (map fst (p_phis (t_block b)))
}.

(** Names of stack positions whose value nobody reads: no block mentions them. *)
Definition unread (dummy : list string) (b : tblock) : Prop :=
  let k := t_block b in
  forall x, In x dummy ->
    (forall i, In i (p_instrs k) -> ~ In x (c_in i)) /\ (forall i, p_last k = Some i -> ~ In x (c_in i)) /\
    (forall p, In p (p_phis k) -> fst p <> x /\ ~ In x (snd p)) /\ (forall r, ~ In (r, x) (t_held b)).

(** The layout [out] left by the block [from] is what [b] expects, each result of
    a phi function in the place of its argument; the bottom of the stack can be
    forgotten if [forget]. *)
Definition passes (dummy : list string) (phis : list (string * list string)) (k : option nat) (v u : string) : Prop :=
  In u dummy \/
  (v <> "bottom" /\ ~ In v dummy /\
   match lookup u phis with
   | Some args => exists n, k = Some n /\ nth_error args n = Some v
   | None => u = v
   end).
Definition layouts_agree (dummy : list string) (forget : bool) (from : option string) (out : list string) (b : tblock) : Prop :=
  exists keep rest, out = keep ++ rest /\ (forget = false -> rest = []) /\
    Forall2 (passes dummy (p_phis (t_block b)) (match from with Some f => index_of f (p_entries (t_block b)) | None => None end))
      keep (t_initial b).

(** The variable [v] stays in the register [r] until the next block: a function
    called at the end of the block neither uses the register nor assigns [v]. *)
Definition stays (tr : translation) (b : tblock) (r : Z) (v : string) : Prop :=
  In (r, v) (held_after b) /\ user_name v /\
  forall i k, p_last (t_block b) = Some i -> lookup (c_op i) (t_functions tr) = Some k -> ~ In r (t_regs k) /\ ~ In v (c_out i).

(** The block pushes the tag [z], called [t]. *)
Definition pushes_tag (b : tblock) (t : string) (z : Z) : Prop :=
  exists i, In i (p_instrs (t_block b)) /\ c_op i = "PUSH [tag]" /\ c_out i = [t] /\ py_int t = Some z.
Definition tag_for (tags : list (string * Z)) (b : tblock) (t : string) (to : string) : Prop :=
  exists z, pushes_tag b t z /\ lookup to tags = Some z.

(** How blocks end. *)
Inductive ending (tr : translation) (tags : list (string * Z)) (k : tcomponent) (b : tblock) : Prop :=
| Ends_jump i t j : p_type (t_block b) = "unconditional" -> p_last (t_block b) = Some i -> c_op i = "JUMP" -> c_in i = [t] -> c_out i = [] ->
    p_jump_to (t_block b) = Some j -> tag_for tags b t j -> ending tr tags k b
| Ends_jumpi i t cond j f : p_type (t_block b) = "conditional" -> p_last (t_block b) = Some i -> c_op i = "JUMPI" -> c_in i = [t; cond] ->
    c_out i = [] -> cond <> "bottom" -> p_jump_to (t_block b) = Some j -> p_falls_to (t_block b) = Some f -> tag_for tags b t j -> ending tr tags k b
| Ends_fall f : p_type (t_block b) = "falls_to" -> p_last (t_block b) = None -> p_falls_to (t_block b) = Some f -> ending tr tags k b
(* a call of a function that returns: last argument the tag of the next block *)
| Ends_call i fk ft args back next r ps : In (p_type (t_block b)) ["sub_block"; "falls_to"] -> p_last (t_block b) = Some i ->
    lookup (c_op i) (t_functions tr) = Some fk -> c_in i = ft :: args ++ [back] -> tag_for tags b ft (t_start fk) ->
    (forall v, In v args -> v <> "bottom") ->
    p_falls_to (t_block b) = Some next -> tag_for tags b back next ->
    t_return fk = Some r -> t_params fk = ps ++ [r] -> length ps = length args ->
    (* its results are new variables *)
    NoDup (c_out i) -> (forall x, In x (c_out i) -> user_name x) ->
    (forall rest v, t_final b = c_out i ++ rest -> In v rest -> ~ In v (c_out i)) -> ending tr tags k b
(* a call of a function that never returns *)
| Ends_last_call i fk ft args : In (p_type (t_block b)) ["terminal"; "sub_block"; "falls_to"] -> p_last (t_block b) = Some i ->
    lookup (c_op i) (t_functions tr) = Some fk -> c_in i = ft :: args -> tag_for tags b ft (t_start fk) ->
    (forall v, In v args -> v <> "bottom") ->
    t_return fk = None -> length (t_params fk) <= length args -> ending tr tags k b
(* nothing else of the component is in the stack when it returns *)
| Ends_return i r values : p_type (t_block b) = "FunctionReturn" -> p_last (t_block b) = Some i -> c_op i = "functionReturn" ->
    c_in i = r :: values -> c_out i = [] -> (forall v, In v values -> v <> "bottom") ->
    t_return k = Some r -> t_final b = [] -> ending tr tags k b
| Ends_stop i : p_type (t_block b) = "terminal" -> p_last (t_block b) = Some i -> In (c_op i) ["return"; "revert"; "stop"; "selfdestruct"] ->
    (forall v, In v (c_in i) -> v <> "bottom") -> ending tr tags k b
| Ends_main : p_type (t_block b) = "mainExit" -> p_last (t_block b) = None -> ending tr tags k b.

Record translated (tr : translation) (tags : list (string * Z)) (dummy : list string) : Prop := {
  tr_compiled : forall c b tb, tblock_of tr c b = Some tb -> compiled tb;
  tr_unread : forall c b tb, tblock_of tr c b = Some tb -> unread dummy tb;
  (* names of the functions *)
  tr_functions : NoDup (map fst (t_functions tr)) /\
    forall f, In f (map fst (t_functions tr)) -> ~ In f ["functionReturn"; "JUMP"; "JUMPI"; "return"; "revert"; "stop"; "selfdestruct"];
  tr_ending : forall c k b tb, tcomponent_of tr c = Some k -> lookup b (t_blocks k) = Some tb -> ending tr tags k tb;
  (* words are only left behind where nobody returns *)
  tr_junk : forall c k b tb, tcomponent_of tr c = Some k -> lookup b (t_blocks k) = Some tb -> t_return k <> None -> t_junk tb = false;
  tr_edges : forall c k b tb b' tb', tcomponent_of tr c = Some k -> lookup b (t_blocks k) = Some tb ->
    (p_jump_to (t_block tb) = Some b' \/ p_falls_to (t_block tb) = Some b') -> lookup b' (t_blocks k) = Some tb' ->
    layouts_agree dummy (match t_return k with None => true | Some _ => false end) (Some b) (t_final tb) tb';
  (* what a block has in registers is what the next ones expect there *)
  tr_held : forall c k b tb b' tb', tcomponent_of tr c = Some k -> lookup b (t_blocks k) = Some tb ->
    (p_jump_to (t_block tb) = Some b' \/ p_falls_to (t_block tb) = Some b') -> lookup b' (t_blocks k) = Some tb' ->
    forall r u, In (r, u) (t_held tb') -> exists v, stays tr tb r v /\
      passes dummy (p_phis (t_block tb')) (index_of b (p_entries (t_block tb'))) v u;
  tr_nothing : forall c k tb, tcomponent_of tr c = Some k -> lookup (t_start k) (t_blocks k) = Some tb -> t_held tb = [];
  (* the registers of a component *)
  tr_regs : forall c k b tb, tcomponent_of tr c = Some k -> lookup b (t_blocks k) = Some tb ->
    incl (t_slots tb) (t_regs k) /\ incl (map fst (t_held tb)) (t_regs k) /\
    forall i fk, p_last (t_block tb) = Some i -> lookup (c_op i) (t_functions tr) = Some fk -> incl (t_regs fk) (t_regs k);
  tr_entry : forall c k tb, tcomponent_of tr c = Some k -> lookup (t_start k) (t_blocks k) = Some tb ->
    NoDup (t_params k) /\ (forall p, In p (t_params k) -> user_name p) /\
    layouts_agree dummy (match t_return k with None => true | Some _ => false end) None (t_params k) tb;
  (* the address to return to is never assigned *)
  tr_return : forall c k r b tb, tcomponent_of tr c = Some k -> t_return k = Some r -> lookup b (t_blocks k) = Some tb ->
    ~ In r (map fst (p_phis (t_block tb))) /\ (forall i, In i (p_instrs (t_block tb)) -> ~ In r (c_out i)) /\
    (forall i, p_last (t_block tb) = Some i -> ~ In r (c_out i)) /\ ~ In r dummy;
  (* the main code has no parameters and does not return *)
  tr_main : t_params (t_main tr) = [] /\ t_return (t_main tr) = None
}.

(** The program does not access the registers in the block where it is. *)
Definition spares {V LV} (sem : semantics V place LV) (val : V -> Z) (R : list Z) (g : program) (s : config V place LV) : Prop :=
  match s with
  | Run c from b e w _ => forall blk e1, block_of g c b = Some blk -> enter sem blk from e = Some e1 -> block_spares sem val R (p_instrs blk) e1 w
  | Halt _ _ _ => True
  end.
