(** Specification side of C47. *)
From Verif Require Import Base UtilModel LiveModel CfgModel JumpModel ObjSem.
Open Scope string_scope. Open Scope list_scope.

(** The names of the variables do not matter for what an instruction does.  Only
    the instruction that pushes a tag has a result whose name is its meaning; it
    does not occur before the placement of jumps. *)
Definition by_operation {V W} (M : words V W) : Prop := forall i j args w,
  li_op i <> "PUSH [tag]" -> li_op i = li_op j -> li_lits i = li_lits j -> length (li_outs i) = length (li_outs j) -> o_do M i args w = o_do M j args w.
Definition tagless (ob : cobject) : Prop := forall c b blk i, block_at ob c b = Some blk -> In i (cb_instrs blk) -> li_op i <> "PUSH [tag]".
(** The same ends and the same endless executions, for every such meaning. *)
Definition same_up_to_names (ob ob' : cobject) : Prop := forall V W (M : words V W), by_operation M -> forall w,
  (forall op args w', stops M ob w op args w' <-> stops M ob' w op args w') /\ (goes_on M ob w <-> goes_on M ob' w).

(** Every variable of a component is defined in it: an argument or the result of
    an instruction.  Constants start with 0x. *)
Definition reads_at (ob : cobject) (c : option string) (x : string) : Prop := exists b blk, block_at ob c b = Some blk /\
  ((exists i, In i (cb_instrs blk) /\ In x (li_ins i)) \/ cb_cond blk = Some x).
Definition defines_at (ob : cobject) (c : option string) (x : string) : Prop :=
  (exists f k, c = Some f /\ lookup f (ob_functions ob) = Some k /\ In x (fn_args k))
  \/ exists b blk i, block_at ob c b = Some blk /\ In i (cb_instrs blk) /\ In x (li_outs i).
Definition scoped (ob : cobject) : Prop := forall c x, reads_at ob c x -> prefix "0x" x = false -> defines_at ob c x.
