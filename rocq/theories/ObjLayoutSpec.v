(** Specification side of C50: how the blocks of an object are laid out before
    the first pass. *)
From Coq Require Import Relations.
From Verif Require Import Base Lexical UtilModel LiveModel CfgModel CfgSpec MergePassProps JumpModel JumpSpec ObjSem ObjRenameSpec ObjSsaSpec ObjCombineSpec.
From Verif Require DepsModel.
Open Scope string_scope. Open Scope list_scope.

Record laid_out (ob : cobject) : Prop := {
  (* a block that tests a condition has two targets *)
  lo_conds : forall c g x b, component ob c g -> lookup x (cl_blocks g) = Some b -> cb_cond b <> None -> length (successors b) = 2;
  (* no jump to the first block, and no cycle of blocks without another way in *)
  lo_start : forall c g, component ob c g -> start_first g;
  lo_chain : forall c g, component ob c g -> no_closed_chain g;
  lo_typed : forall c g, component ob c g -> typed_exits g;
  lo_joins : forall c g, component ob c g -> joins_have_phis g;
  lo_leaving : forall c g x b i, component ob c g -> lookup x (cl_blocks g) = Some b -> In i (cb_instrs b) -> In (li_op i) leaving -> successors b = [];
  (* after a call that returns there is something left to do *)
  lo_calls : forall c g x b pre i y, component ob c g -> lookup x (cl_blocks g) = Some b -> cb_instrs b = pre ++ [i] -> In (li_op i) (map fst (ob_functions ob)) ->
    return_name ob (Some (li_op i)) <> None -> edge g x y -> ~ runs_out g y;
  lo_exit : forall c g x b pre i, component ob c g -> lookup x (cl_blocks g) = Some b -> cb_type b = "mainExit" \/ successors b = [] ->
    cb_instrs b = pre ++ [i] -> In (li_op i) (map fst (ob_functions ob)) -> return_name ob (Some (li_op i)) = None;
  (* functions do not end with an empty block *)
  lo_ends : forall f g x b, component ob (Some f) g -> lookup x (cl_blocks g) = Some b -> cb_instrs b = [] -> successors b = [] -> cl_start g <> Some x /\ forall y, ~ edge g y x;
  (* literals can be read, phi functions have one result and an argument for each entry, and there is no "invalid" (see DESIGN.md) *)
  lo_literals : forall c x, reads_at ob c x -> prefix "0x" x = true -> DepsModel.py_int16 x <> None;
  lo_phis : forall c g x b i, component ob c g -> lookup x (cl_blocks g) = Some b -> In i (cb_instrs b) -> li_op i = "PhiFunction" -> exists o, li_outs i = [o];
  lo_arity : forall c g x b i, component ob c g -> lookup x (cl_blocks g) = Some b -> In i (cb_instrs b) -> li_op i = "PhiFunction" -> length (li_ins i) = length (cb_entries b);
  lo_invalid : forall c g x b i, component ob c g -> lookup x (cl_blocks g) = Some b -> In i (cb_instrs b) -> li_op i <> "invalid"
}.

(** What the first pass is given.  Names of variables may be used again in other
    components; in each component a variable gets its value at one place, before
    it is read. *)
Record source_ok (ob : cobject) : Prop := {
  so_object : object_ok ob;
  so_layout : laid_out ob;
  so_scoped : scoped ob;
  so_once : forall c g, component ob c g -> NoDup (arguments ob c ++ results g);
  so_names : forall c x, defines_at ob c x -> prefix "0x" x = false;
  so_strict : forall c g b rest x, component ob c g -> read_here g b rest x -> prefix "0x" x = false -> ~ In x (arguments ob c) -> ~ reached_without g [x] b rest;
  (* calls have as many arguments and results as the function *)
  so_arity : forall c b blk i k, block_at ob c b = Some blk -> In i (cb_instrs blk) -> lookup (li_op i) (ob_functions ob) = Some k ->
    length (fn_args k) = length (li_ins i)
    /\ forall b' blk' r, block_at ob (Some (li_op i)) b' = Some blk' -> In r (cb_instrs blk') -> li_op r = "functionReturn" -> length (li_ins r) = length (li_outs i);
  (* the exits of a component are listed once and test nothing *)
  so_exits : forall c g, component ob c g -> NoDup (cl_return g) /\ forall x blk, In x (cl_return g) -> lookup x (cl_blocks g) = Some blk -> cb_cond blk = None;
  (* nothing follows the call of a function that never returns, and its results are not used *)
  so_stuck : forall c b blk p i q k, block_at ob c b = Some blk -> cb_instrs blk = p ++ i :: q -> lookup (li_op i) (ob_functions ob) = Some k -> cl_return (fn_blocks k) = [] ->
    q = [] /\ successors blk = [] /\ forall y, In y (li_outs i) -> ~ reads_at ob c y;
  (* every block can be reached, unless it is empty and leads nowhere *)
  so_reached : forall c g b blk, component ob c g -> lookup b (cl_blocks g) = Some blk -> cb_instrs blk <> [] \/ successors blk <> [] ->
    reached_without g [] b (snd (phis_of (cb_instrs blk)))
}.
