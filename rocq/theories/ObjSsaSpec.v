(** Specification side of C48: objects in which every variable gets its value at
    one place, before it is read. *)
From Verif Require Import Base UtilModel LiveModel CfgModel CfgSpec JumpModel JumpSpec ObjSem ObjRenameSpec.
Open Scope string_scope. Open Scope list_scope.

(** A point of a component is a block and the instructions of the block still to
    be executed.  It is reached without [X] on a path from the start of the
    component on which no instruction gives a value to a variable of [X]. *)
Inductive reached_without (g : clist) (X : list string) : string -> list linstr -> Prop :=
| rw_start s blk rest : cl_start g = Some s -> lookup s (cl_blocks g) = Some blk -> phis_of (cb_instrs blk) = ([], rest) -> reached_without g X s rest
| rw_instr b i rest : reached_without g X b (i :: rest) -> (forall x, In x X -> ~ In x (li_outs i)) -> reached_without g X b rest
| rw_edge b blk b' blk' ps rest : reached_without g X b [] -> lookup b (cl_blocks g) = Some blk -> In b' (successors blk) ->
    lookup b' (cl_blocks g) = Some blk' -> phis_of (cb_instrs blk') = (ps, rest) -> (forall x, In x X -> ~ In x (flat_map li_outs ps)) -> reached_without g X b' rest.

(** What is read at a point: the arguments of the next instruction; at the end of
    a block, the condition and what the phi functions of the next block take. *)
Inductive read_here (g : clist) : string -> list linstr -> string -> Prop :=
| rh_instr b i rest x : In x (li_ins i) -> read_here g b (i :: rest) x
| rh_cond b blk x : lookup b (cl_blocks g) = Some blk -> cb_type blk = "conditional" -> cb_cond blk = Some x -> read_here g b [] x
| rh_phi b blk b' blk' k p x : lookup b (cl_blocks g) = Some blk -> In b' (successors blk) -> lookup b' (cl_blocks g) = Some blk' ->
    index_of b (cb_entries blk') = Some k -> In p (fst (phis_of (cb_instrs blk'))) -> nth_error (li_ins p) k = Some x -> read_here g b [] x.

(** The arguments of a component and the results of its instructions. *)
Definition arguments (ob : cobject) (c : option string) : list string :=
  match c with Some f => match lookup f (ob_functions ob) with Some k => fn_args k | None => [] end | None => [] end.
Definition results (g : clist) : list string := flat_map (fun kb => flat_map li_outs (cb_instrs (snd kb))) (cl_blocks g).

Record ssa (ob : cobject) : Prop := {
  ssa_scoped : scoped ob;
  (* a variable is defined once in a component, and in one component *)
  ssa_once : forall c g, component ob c g -> NoDup (arguments ob c ++ results g);
  ssa_apart : forall c1 c2 x, defines_at ob c1 x -> defines_at ob c2 x -> c1 = c2;
  ssa_names : forall c x, defines_at ob c x -> prefix "0x" x = false;
  (* on every path to a place where a variable is read, it has got a value *)
  ssa_strict : forall c g b rest x, component ob c g -> read_here g b rest x -> prefix "0x" x = false -> ~ In x (arguments ob c) -> ~ reached_without g [x] b rest
}.

(** The call at position [pos] of the block [id] of the component [c] is the only
    call of [f]; the numbers of arguments and results match. *)
Record only_call (ob : cobject) (c : option string) (id : string) (pos : nat) (f : string) (k : cfun) (call : linstr) : Prop := {
  oc_function : lookup f (ob_functions ob) = Some k;
  oc_outside : c <> Some f;
  oc_here : exists blk, block_at ob c id = Some blk /\ nth_error (cb_instrs blk) pos = Some call /\ li_op call = f;
  oc_only : forall c' b' blk n i, block_at ob c' b' = Some blk -> nth_error (cb_instrs blk) n = Some i -> li_op i = f -> c' = c /\ b' = id /\ n = pos;
  oc_arguments : length (fn_args k) = length (li_ins call);
  oc_results : forall b blk i, block_at ob (Some f) b = Some blk -> In i (cb_instrs blk) -> li_op i = "functionReturn" -> length (li_ins i) = length (li_outs call);
  oc_fresh : forall x, In x (li_outs call) -> ~ In x (li_ins call);
  (* the exits of the function are listed once and test nothing *)
  oc_exits : NoDup (cl_return (fn_blocks k)) /\ forall x blk, In x (cl_return (fn_blocks k)) -> lookup x (cl_blocks (fn_blocks k)) = Some blk -> cb_cond blk = None
}.

(** [ob'] does what [ob] does, for every meaning that does not look at names. *)
Definition carries_over (ob ob' : cobject) : Prop := forall V W (M : words V W), by_operation M -> forall w,
  (forall op args w', stops M ob w op args w' -> stops M ob' w op args w') /\ (goes_on M ob w -> goes_on M ob' w).
