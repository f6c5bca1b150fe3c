(** Specification side of the dependency analysis: which storage slots,
    memory bytes and events the instructions of a block touch, following the
    EVM. *)
From Coq Require Import Relations.
From Verif Require Import Base DepsModel.

(** Value of an argument when the variables have values [e]: literals stand
    for themselves. *)
Definition arg_val (e : string -> Z) (v : string) : option Z :=
  if startswith "0x" v then py_int16 v else Some (e v).
Definition nth_val (e : string -> Z) (i : cins) (k : nat) (z : Z) : Prop :=
  exists v, nth_error (c_in i) k = Some v /\ arg_val e v = Some z.

(** Instructions that run other code, which may come back and access this
    contract's storage. *)
Definition is_call (i : cins) : Prop :=
  In (c_op i) ["call"; "callcode"; "delegatecall"; "staticcall"]%string.
Definition is_create (i : cins) : Prop := In (c_op i) ["create"; "create2"]%string.

Definition slot_read (load : string) (e : string -> Z) (i : cins) (s : Z) : Prop :=
  (c_op i = load /\ nth_val e i 0 s) \/ is_call i \/ is_create i.
Definition slot_write (store : string) (e : string -> Z) (i : cins) (s : Z) : Prop :=
  (c_op i = store /\ nth_val e i 0 s) \/ (is_call i /\ c_op i <> "staticcall"%string) \/ is_create i.
(** the two instructions may touch slot [s], one of them writing it *)
Definition slot_conflict (load store : string) (e : string -> Z) (i j : cins) : Prop :=
  exists s, (slot_write store e i s /\ (slot_read load e j s \/ slot_write store e j s))
            \/ (slot_read load e i s /\ slot_write store e j s).

(** Byte ranges of memory, as (position of the address argument, size). *)
Inductive msize := Const (n : Z) | Arg (k : nat).
Definition mem_reads (op : string) : list (nat * msize) :=
  if mem op ["mload"]%string then [(0, Const 32)]
  else if mem op ["keccak256"; "log0"; "log1"; "log2"; "log3"; "log4"]%string then [(0, Arg 1)]
  else if mem op ["create"; "create2"]%string then [(1, Arg 2)]
  else if mem op ["call"; "callcode"]%string then [(3, Arg 4)]
  else if mem op ["delegatecall"; "staticcall"]%string then [(2, Arg 3)]
  else if mem op ["mcopy"]%string then [(1, Arg 2)]
  else [].
Definition mem_writes (op : string) : list (nat * msize) :=
  if mem op ["mstore"]%string then [(0, Const 32)]
  else if mem op ["mstore8"]%string then [(0, Const 1)]
  else if mem op ["codecopy"; "calldatacopy"; "returndatacopy"; "mcopy"]%string then [(0, Arg 2)]
  else if mem op ["extcodecopy"]%string then [(1, Arg 3)]
  else if mem op ["call"; "callcode"]%string then [(5, Arg 6)]
  else if mem op ["delegatecall"; "staticcall"]%string then [(4, Arg 5)]
  else [].
Definition in_range (e : string -> Z) (i : cins) (r : nat * msize) (b : Z) : Prop :=
  exists a n, nth_val e i (fst r) a
    /\ match snd r with Const c => n = c | Arg k => nth_val e i k n end
    /\ (a <= b < a + n)%Z.
Definition byte_read (e : string -> Z) (i : cins) (b : Z) : Prop :=
  exists r, In r (mem_reads (c_op i)) /\ in_range e i r b.
(** "assignimmutable" patches bytes of code already copied to memory: it may
    write any byte. *)
Definition byte_write (e : string -> Z) (i : cins) (b : Z) : Prop :=
  c_op i = "assignimmutable"%string \/ exists r, In r (mem_writes (c_op i)) /\ in_range e i r b.
Definition mem_conflict (e : string -> Z) (i j : cins) : Prop :=
  exists b, (byte_write e i b /\ (byte_read e j b \/ byte_write e j b))
            \/ (byte_read e i b /\ byte_write e j b).

(** [y] is computed, through any number of instructions, from [x]. *)
Definition uses (instrs : list cins) (y x : string) : Prop :=
  exists i, In i instrs /\ In y (c_out i) /\ In x (c_in i).
Definition computed_from (instrs : list cins) : string -> string -> Prop := clos_trans string (uses instrs).
