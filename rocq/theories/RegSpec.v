(** Specification of the memory registers used by the repair: what the repaired
    code stores and loads, in the order of execution. *)
From Verif Require Import Base Lexical RegModel.
Open Scope string_scope. Open Scope list_scope.

(** An access to the register of a variable. *)
Inductive access := Store (x : string) | Load (x : string).

(** The accesses of a list of ids, read from their text: VGET(x) loads, VSET(x)
    and DUP-VSET(x,pos) store, the others do nothing. *)
Definition dup_vset_id (x pos : string) : string := ("DUP-VSET(" ++ x ++ "," ++ pos ++ ")")%string.
Inductive ids_access : list string -> list access -> Prop :=
| ia_nil : ids_access [] []
| ia_get x ids l : ids_access ids l -> ids_access (vget_id x :: ids) (Load x :: l)
| ia_set x ids l : ids_access ids l -> ids_access (vset_id x :: ids) (Store x :: l)
| ia_dup x pos ids l : contains "," x = false -> contains "," pos = false -> ids_access ids l ->
    ids_access (dup_vset_id x pos :: ids) (Store x :: l)
| ia_other id ids l : prefix "VGET" id = false -> contains "VSET" id = false -> ids_access ids l -> ids_access (id :: ids) l.

(** The accesses of a block: on entry the registers of the phi functions to be
    solved have been written; then the ids; at the end the registers of the
    values passed to phi functions of the successors are read. *)
Definition block_access (b : rblock) (l : list access) : Prop :=
  exists li, ids_access (rb_ids b) li /\
    l = map Store (filter (fun x => mem x (rb_solve b)) (map fst (rb_phis b))) ++ li ++ map Load (rb_copies b).
(** along a sequence of blocks *)
Inductive blocks_access : list rblock -> list access -> Prop :=
| ba_nil : blocks_access [] []
| ba_cons b bs l l' : block_access b l -> blocks_access bs l' -> blocks_access (b :: bs) (l ++ l').

(** The blocks from the root of a dominator tree to one of its nodes. *)
Inductive tree_path : dtree -> list rblock -> Prop :=
| tp_here b ch : tree_path (DNode b ch) [b]
| tp_down b ch t p : In t ch -> tree_path t p -> tree_path (DNode b ch) (b :: p).
(** The blocks of a tree. *)
Inductive in_tree : rblock -> dtree -> Prop :=
| it_here b ch : in_tree b (DNode b ch)
| it_down b b' ch t : In t ch -> in_tree b t -> in_tree b (DNode b' ch).

(** Every load comes after a store of the same variable. *)
Fixpoint defined_before (stored : list string) (l : list access) : Prop :=
  match l with
  | [] => True
  | Store x :: l' => defined_before (x :: stored) l'
  | Load x :: l' => In x stored /\ defined_before stored l'
  end.

(** Execution with numbered registers: [color] gives the register of a variable
    and [val] its value (a variable has one value: it is stored once).  Every
    load finds the value of its variable. *)
Section Run.
  Context {V : Type} (color : string -> option nat) (val : string -> V).
  Definition write (x : string) (regs : nat -> option V) : nat -> option V :=
    fun r => match color x with Some c => if (c =? r)%nat then Some (val x) else regs r | None => regs r end.
  Fixpoint loads_right (regs : nat -> option V) (l : list access) : Prop :=
    match l with
    | [] => True
    | Store x :: l' => loads_right (write x regs) l'
    | Load x :: l' => (exists c, color x = Some c /\ regs c = Some (val x)) /\ loads_right regs l'
    end.
End Run.

(** The variables a block stores (its phi functions to solve, then its ids), and
    those of a whole tree. *)
Fixpoint stores (l : list access) : list string :=
  match l with [] => [] | Store x :: l' => x :: stores l' | Load _ :: l' => stores l' end.
Inductive tree_stores : dtree -> list string -> Prop :=
| ts_node b ch l ls : block_access b l -> trees_stores ch ls -> tree_stores (DNode b ch) (stores l ++ ls)
with trees_stores : list dtree -> list string -> Prop :=
| ts_nil : trees_stores [] []
| ts_cons t ts l ls : tree_stores t l -> trees_stores ts ls -> trees_stores (t :: ts) (l ++ ls).

(** Executions of a block list, most recent block first, and its dominator tree. *)
Inductive exec (blocks : list (string * rblock)) (entry : rblock) : list rblock -> Prop :=
| ex_start : exec blocks entry [entry]
| ex_step b b' w : exec blocks entry (b :: w) -> In (rb_name b') (rb_succs b) -> In (rb_name b', b') blocks -> exec blocks entry (b' :: b :: w).
Definition dominates (blocks : list (string * rblock)) (entry p c : rblock) : Prop :=
  forall w, exec blocks entry (c :: w) -> In p (c :: w).
Definition root (t : dtree) : rblock := match t with DNode b _ => b end.
Inductive parent_of : rblock -> rblock -> dtree -> Prop :=
| po_here b ch t : In t ch -> parent_of b (root t) (DNode b ch)
| po_down p c b ch t : In t ch -> parent_of p c t -> parent_of p c (DNode b ch).
(** the root is the entry, the blocks of the tree are the blocks of the list, and
    the parent of a block is its immediate dominator *)
Definition dominator_tree (blocks : list (string * rblock)) (entry : rblock) (t : dtree) : Prop :=
  root t = entry /\ (forall b, in_tree b t <-> In (rb_name b, b) blocks) /\
  forall p c, parent_of p c t -> p <> c /\ dominates blocks entry p c
    /\ forall q, dominates blocks entry q c -> q <> c -> dominates blocks entry q p.
