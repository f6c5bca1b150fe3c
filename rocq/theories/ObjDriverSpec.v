(** Specification side of C49: objects all of whose functions can be inlined, and
    which functions are called once. *)
From Verif Require Import Base UtilModel LiveModel CfgModel CfgSpec JumpModel JumpSpec ObjSem ObjRenameSpec ObjSsaSpec.
Open Scope string_scope. Open Scope list_scope.

Record calls_ok (ob : cobject) : Prop := {
  (* calls have as many arguments and results as the function *)
  ca_arity : forall c b blk i k, block_at ob c b = Some blk -> In i (cb_instrs blk) -> lookup (li_op i) (ob_functions ob) = Some k ->
    length (fn_args k) = length (li_ins i)
    /\ forall b' blk' r, block_at ob (Some (li_op i)) b' = Some blk' -> In r (cb_instrs blk') -> li_op r = "functionReturn" -> length (li_ins r) = length (li_outs i);
  (* the exits of a component are listed once and test nothing *)
  ca_exits : forall c g, component ob c g -> NoDup (cl_return g) /\ forall x blk, In x (cl_return g) -> lookup x (cl_blocks g) = Some blk -> cb_cond blk = None;
  (* nothing follows the call of a function that never returns, and its results are not used *)
  ca_stuck : forall c b blk p i q k, block_at ob c b = Some blk -> cb_instrs blk = p ++ i :: q -> lookup (li_op i) (ob_functions ob) = Some k -> cl_return (fn_blocks k) = [] ->
    q = [] /\ successors blk = [] /\ forall y, In y (li_outs i) -> ~ reads_at ob c y;
  (* every block can be reached, unless it is empty and leads nowhere *)
  ca_reached : forall c g b blk, component ob c g -> lookup b (cl_blocks g) = Some blk -> cb_instrs blk <> [] \/ successors blk <> [] ->
    reached_without g [] b (snd (phis_of (cb_instrs blk)));
  (* the names of variables are neither tags nor those of return addresses *)
  ca_variables : forall c x, defines_at ob c x -> numeral x = false /\ forall f, In f (map fst (ob_functions ob)) -> x <> ("out_" ++ f)%string
}.

(** The [n]-th instruction of the block [b] of the component [c] calls [f]. *)
Definition call_at (ob : cobject) (f : string) (c : option string) (b : string) (n : nat) : Prop :=
  exists blk i, block_at ob c b = Some blk /\ nth_error (cb_instrs blk) n = Some i /\ li_op i = f.
Definition called_once (ob : cobject) (f : string) : Prop :=
  In f (map fst (ob_functions ob)) /\ exists c b n, call_at ob f c b n /\ forall c' b' n', call_at ob f c' b' n' -> c' = c /\ b' = b /\ n' = n.
(** [p] calls [f], perhaps through other functions. *)
Inductive calls (ob : cobject) : string -> string -> Prop :=
| calls_here p f b n : call_at ob f (Some p) b n -> In f (map fst (ob_functions ob)) -> calls ob p f
| calls_trans p q f : calls ob p q -> calls ob q f -> calls ob p f.

(** The order in which functions are considered: each function that is called,
    once; a function before those that call it, unless they call each other. *)
Record inlining_order (ob : cobject) (order : list string) : Prop := {
  io_once : NoDup order;
  io_called : forall f, In f order <-> In f (map fst (ob_functions ob)) /\ exists c b n, call_at ob f c b n;
  io_sorted : forall f p b n, In f order -> In p order -> call_at ob f (Some p) b n -> ~ calls ob f p -> exists l1 l2 l3, order = l1 ++ f :: l2 ++ p :: l3
}.
