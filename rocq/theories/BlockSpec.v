(** Specification side of the whole translation of a block: the places of the
    EVM's state that the operations of a block touch, which meanings of the
    operations stay within them, and which blocks are considered. *)
From Coq Require Import Relations.
From Verif Require Import Base Lexical SymExecModel AsmModel MachineSpec DepsModel DepsSpec SpecSem.
Open Scope string_scope. Open Scope list_scope.

(** A byte of memory, a slot of storage, a slot of transient storage, and
    everything else that operations can change: logs, balances, code of other
    accounts, return data.  Remaining gas and size of memory are not state:
    "gas" and "msize" give values that do not depend on the rest. *)
Inductive place := Byte (b : Z) | Slot (s : Z) | TSlot (s : Z) | Elsewhere.

Definition call_names : list string := ["call"; "callcode"; "delegatecall"; "staticcall"].
Definition create_names : list string := ["create"; "create2"].
Definition log_names : list string := ["log0"; "log1"; "log2"; "log3"; "log4"].

(** The places read and written by an operation, given its arguments. *)
Definition range_has (args : list Z) (b : Z) (r : nat * msize) : bool :=
  match nth_error args (fst r), (match snd r with Const c => Some c | Arg k => nth_error args k end) with
  | Some a, Some n => (a <=? b)%Z && (b <? a + n)%Z
  | _, _ => false
  end.
Definition first_is (args : list Z) (s : Z) : bool :=
  match args with a :: _ => (a =? s)%Z | [] => false end.
Definition evm_reads (op : string) (args : list Z) (l : place) : bool :=
  match l with
  | Byte b => existsb (range_has args b) (mem_reads op)
  | Slot s => String.eqb op "sload" && first_is args s || mem op (call_names ++ create_names)
  | TSlot s => String.eqb op "tload" && first_is args s || mem op (call_names ++ create_names)
  | Elsewhere => mem op (["balance"; "selfbalance"; "extcodesize"; "extcodehash"; "extcodecopy"; "returndatasize";
                          "returndatacopy"] ++ call_names ++ create_names ++ log_names)
  end.
Definition evm_writes (op : string) (args : list Z) (l : place) : bool :=
  match l with
  | Byte b => String.eqb op "assignimmutable" || existsb (range_has args b) (mem_writes op)
  | Slot s => String.eqb op "sstore" && first_is args s || mem op (["call"; "callcode"; "delegatecall"] ++ create_names)
  | TSlot s => String.eqb op "tstore" && first_is args s || mem op (["call"; "callcode"; "delegatecall"] ++ create_names)
  | Elsewhere => mem op (call_names ++ create_names ++ log_names)
  end.
(** A place that may be left as it was also counts as read. *)
Definition evm_depends (op : string) (args : list Z) (l : place) : Prop :=
  evm_reads op args l = true \/ evm_writes op args l = true.

Section EvmLike.
Context {V LV : Type}.
Variable sem : semantics V place LV.
(** The number a word stands for. *)
Variable val : V -> Z.

(** The meaning of the operations of the block stays within those places, and
    they take and give as many words as the block says. *)
Record evm_like (instrs : list cins) : Prop := {
  ev_lit : forall i v z, In i instrs -> In v (c_in i) -> startswith "0x" v = true -> py_int16 v = Some z ->
    val (word_of_Z sem z) = z;
  ev_outs : forall i args w1 w2, In i instrs -> (forall l, evm_depends (c_op i) (map val args) l -> w1 l = w2 l) ->
    fst (cfg_denote sem i args w1) = fst (cfg_denote sem i args w2);
  ev_writes : forall i args w1 w2, In i instrs -> (forall l, evm_depends (c_op i) (map val args) l -> w1 l = w2 l) ->
    forall l, evm_writes (c_op i) (map val args) l = true ->
    snd (cfg_denote sem i args w1) l = snd (cfg_denote sem i args w2) l;
  ev_frame : forall i args w l, In i instrs -> evm_writes (c_op i) (map val args) l = false ->
    snd (cfg_denote sem i args w) l = w l;
  ev_pure : forall i args w, In i instrs -> (forall l, evm_writes (c_op i) (map val args) l = false) ->
    snd (cfg_denote sem i args w) = w;
  ev_comm : forall i a b w, In i instrs -> In (c_op i) ["add"; "mul"; "eq"; "and"; "or"; "xor"] ->
    cfg_denote sem i [a; b] w = cfg_denote sem i [b; a] w;
  ev_nout : forall i args w, In i instrs -> length args = length (c_in i) ->
    length (fst (cfg_denote sem i args w)) = length (c_out i);
  ev_nin : forall i im, In i instrs ->
    prim_arity sem (upper (c_op i)) im = length (c_in i);
  ev_push : forall op im, In op ["PUSH0"; "PUSH"] -> prim_arity sem op im = 0
}.
End EvmLike.

(** The argument that gives the slot of an access. *)
Definition slot_of (i : cins) : option string := nth_error (c_in i) 0.

(** Blocks for which the dependencies are enough (for the others see the
    refuted theorems of C07, C09 and C29): no contract creation, no slot of an
    access computed from the slot of another access of the block, logs and
    reads of the rest of the state not mixed with operations that change it;
    "callcode" is not used. *)
Record orderable (instrs : list cins) : Prop := {
  or_create : forall i, In i instrs -> ~ In (c_op i) ("callcode" :: create_names);
  or_slots : forall i j a b, In i instrs -> In j instrs ->
    In (c_op i) ["sload"; "sstore"; "tload"; "tstore"] -> In (c_op j) ["sload"; "sstore"; "tload"; "tstore"] ->
    slot_of i = Some a -> slot_of j = Some b -> ~ computed_from instrs a b;
  or_else : forall m n i j, m <> n -> nth_error instrs m = Some i -> nth_error instrs n = Some j ->
    evm_writes (c_op i) [] Elsewhere = true -> evm_reads (c_op j) [] Elsewhere = true ->
    In (c_op i) call_names /\ In (c_op j) call_names
}.

(** Operations that only read, and may be dropped when nobody needs them. *)
Definition load_names : list string := ["mload"; "sload"; "tload"; "keccak256"].

(** The value of a variable is needed: it is in the target stack, it is an
    argument of an operation that changes the state, or it is an argument of an
    operation that computes a needed value. *)
Inductive needed (instrs : list cins) (target : list string) : string -> Prop :=
| NeedTarget x : In x target -> needed instrs target x
| NeedEffect i x args l : In i instrs -> In x (c_in i) -> evm_writes (c_op i) args l = true -> needed instrs target x
| NeedResult i x y : In i instrs -> In x (c_in i) -> In y (c_out i) -> needed instrs target y -> needed instrs target x.
Definition loads_used (instrs : list cins) (target : list string) : Prop :=
  forall i, In i instrs -> In (c_op i) load_names -> exists x, In x (c_out i) /\ needed instrs target x.
