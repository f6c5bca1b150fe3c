(** What the emitted code of a control-flow graph should look like. *)
From Verif Require Import Base SymExecModel AsmModel UtilModel EmitModel.
Open Scope string_scope. Open Scope list_scope.

(** The next instruction in the code after the block is the beginning of [c]. *)
Definition falls (blocks : list (string * eblock)) (b c : string) : Prop :=
  exists blk, lookup b blocks = Some blk /\ In (eb_type blk) ["conditional"; "falls_to"; "sub_block"] /\ eb_falls_to blk = Some c.
(** The block ends with a jump to [c], conditional or not. *)
Definition jumps (blocks : list (string * eblock)) (b c : string) : Prop :=
  exists blk, lookup b blocks = Some blk /\ In (eb_type blk) ["conditional"; "unconditional"] /\ eb_jump_to blk = Some c.
Definition goes (blocks : list (string * eblock)) (b c : string) : Prop := falls blocks b c \/ jumps blocks b c.
Inductive reachable (blocks : list (string * eblock)) (start : string) : string -> Prop :=
| Reach_start : reachable blocks start start
| Reach_step b c : reachable blocks start b -> goes blocks b c -> reachable blocks start c.
(** Reachable by a path that does not touch [a]; [a] dominates the blocks that are not. *)
Inductive reachable_avoiding (blocks : list (string * eblock)) (start a : string) : string -> Prop :=
| Avoid_start : start <> a -> reachable_avoiding blocks start a start
| Avoid_step b c : reachable_avoiding blocks start a b -> goes blocks b c -> c <> a -> reachable_avoiding blocks start a c.
Definition dominates (blocks : list (string * eblock)) (start a b : string) : Prop := ~ reachable_avoiding blocks start a b.

(** The code of one block: its tag if it has one, the translation of its ids, its
    last instruction and a STOP at the end of the program. *)
Definition block_code (fns : list string) (tags : list (string * Z)) (blocks : list (string * eblock)) (b : string) (code : list asm) : Prop :=
  exists blk ids last, lookup b blocks = Some blk /\ asm_from_ids (eb_spec blk) (eb_ids blk) = Ok ids /\
    match eb_split blk with Some s => asm_for_split_instruction s fns = Ok last | None => last = [] end /\
    code = (match lookup b tags with
            | Some t => [{| a_name := "tag"; a_value := Some (upper (str_Z t)) |}; {| a_name := "JUMPDEST"; a_value := None |}]
            | None => [] end)
           ++ ids ++ last ++ (if String.eqb (eb_type blk) "mainExit" then [{| a_name := "STOP"; a_value := None |}] else []).

(** Two consecutive elements. *)
Definition adjacent (b c : string) (order : list string) : Prop := exists l1 l2, order = l1 ++ b :: c :: l2.

(** The code is a sequence of blocks: the start block first, each reachable
    block exactly once, and every fall-through adjacent. *)
Definition laid_out (fns : list string) (tags : list (string * Z)) (blocks : list (string * eblock)) (start : string)
  (order : list string) (code : list asm) : Prop :=
  (exists rest, order = start :: rest) /\ NoDup order /\ (forall b, In b order <-> reachable blocks start b) /\
  (exists codes, Forall2 (block_code fns tags blocks) order codes /\ code = concat codes) /\
  (forall b c, reachable blocks start b -> falls blocks b c -> adjacent b c order).

(** A graph as produced by the passes before the emission. *)
Record well_formed (fns : list string) (tags : list (string * Z)) (blocks : list (string * eblock)) (start : string) : Prop := {
  (* the start block has the name the emission expects *)
  wf_start : lookup start blocks <> None /\ contains "Block0" start = true;
  (* every reachable block can be translated, and is of one of the kinds with its targets present *)
  wf_code : forall b, reachable blocks start b -> exists code, block_code fns tags blocks b code;
  wf_kind : forall b blk, reachable blocks start b -> lookup b blocks = Some blk ->
    (eb_type blk = "conditional" /\ (exists j f, eb_jump_to blk = Some j /\ eb_falls_to blk = Some f /\ lookup j blocks <> None /\ lookup f blocks <> None)) \/
    (eb_type blk = "unconditional" /\ (exists j, eb_jump_to blk = Some j /\ lookup j blocks <> None)) \/
    (eb_type blk = "falls_to" /\ (exists f, eb_falls_to blk = Some f /\ lookup f blocks <> None)) \/
    (* a block cut after a call of a function *)
    (eb_type blk = "sub_block" /\ (exists f, eb_falls_to blk = Some f /\ lookup f blocks <> None) /\
     (exists s, eb_split blk = Some s /\ In (ci_op s) fns)) \/
    (* a terminal block without ids consists of its last instruction *)
    (eb_type blk = "terminal" /\ (asm_from_ids (eb_spec blk) (eb_ids blk) = Ok [] -> exists s, eb_split blk = Some s /\ eb_instrs blk = [s])) \/
    eb_type blk = "FunctionReturn" \/ eb_type blk = "mainExit";
  (* there is some code to fall into *)
  wf_not_empty : forall b c, reachable blocks start b -> falls blocks b c -> ~ block_code fns tags blocks c [];
  (* one way into the target of a conditional jump *)
  wf_jumpi_target : forall b b' blk c, reachable blocks start b -> reachable blocks start b' -> lookup b blocks = Some blk ->
    eb_type blk = "conditional" -> eb_jump_to blk = Some c -> goes blocks b' c -> b' = b /\ eb_falls_to blk <> Some c;
  (* one block falls into another, none into itself or the start *)
  wf_one_fall : forall b b' c, reachable blocks start b -> reachable blocks start b' -> falls blocks b c -> falls blocks b' c -> b = b';
  wf_fall_itself : forall b, reachable blocks start b -> ~ falls blocks b b;
  wf_fall_start : forall b, reachable blocks start b -> ~ falls blocks b start;
  (* a chain of fall-throughs does not end in a block that can be placed before *)
  wf_chain : forall a b c, reachable blocks start a -> falls blocks a b -> falls blocks b c -> dominates blocks start b c
}.

(** The code of a block cut into a sequence of blocks: the code of each part and
    the instruction at which it was cut.  The sequence goes on after a part that
    was cut at something else than a call of a function. *)
Inductive cut_code (fns : list string) (blocks : list (string * eblock)) : eblock -> eblock -> list asm -> Prop :=
| Cut_last b s ids last : eb_split b = Some s -> asm_from_ids (eb_spec b) (eb_ids b) = Ok ids -> asm_for_split_instruction s fns = Ok last ->
    eb_type b <> "sub_block" \/ In (ci_op s) fns -> cut_code fns blocks b b (ids ++ last)
| Cut_more b s ids last next b' e code : eb_split b = Some s -> asm_from_ids (eb_spec b) (eb_ids b) = Ok ids -> asm_for_split_instruction s fns = Ok last ->
    eb_type b = "sub_block" -> ~ In (ci_op s) fns -> eb_falls_to b = Some next -> lookup next blocks = Some b' ->
    cut_code fns blocks b' e code -> cut_code fns blocks b e (ids ++ last ++ code).
