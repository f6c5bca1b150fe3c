(** Specification of the stores inserted by the repair: what DUP-VSET does on a
    stack of variables, and what it means to add stores to a list of ids. *)
From Verif Require Import Base Lexical SymExecModel RegSpec.
Open Scope string_scope. Open Scope list_scope.

(** DUP-VSET(x,p): the element at position p (the top is 0) is stored as x.  It
    is right when that element is x; the stack does not change.  The other ids
    do what the validator says they do. *)
Inductive runs (ui : list instr) : list string -> list string -> list string -> Prop :=
| r_nil st : runs ui [] st st
| r_store x p ids st st' : nth_error st p = Some x -> runs ui ids st st' -> runs ui (dup_vset_id x (str_nat p) :: ids) st st'
| r_id id ids st st1 st' : execute_instr_id id st ui = Ok st1 -> runs ui ids st1 st' -> runs ui (id :: ids) st st'.

(** The second list is the first one with a store of each of the given variables
    added; no store needs a DUP deeper than [depth]. *)
Inductive with_stores (depth : nat) : list string -> list string -> list string -> Prop :=
| ws_nil : with_stores depth [] [] []
| ws_id id ids vs ids' : with_stores depth ids vs ids' -> with_stores depth (id :: ids) vs (id :: ids')
| ws_store x p ids vs ids' : p < depth -> with_stores depth ids vs ids' ->
    with_stores depth ids (x :: vs) (dup_vset_id x (str_nat p) :: ids').

(** x is stored before it is loaded *)
Definition stored_first (x : string) (ids : list string) : Prop :=
  exists l1 p l2, ids = l1 ++ dup_vset_id x (str_nat p) :: l2 /\ ~ In (vget_id x) l1.

From Verif Require Import RegModel PlaceModel.
(** The registers a block writes and reads, in order: the phi functions solved
    through registers, the ids, and the values passed to phi functions of the
    successors that are no longer in the stack at the end of the block. *)
Definition deep_copies (b : pblock) : list string := map fst (filter (fun c => negb (snd c)) (pb_copies b)).
Definition pblock_access (b : pblock) (l : list access) : Prop :=
  exists li, ids_access (pb_ids b) li /\
    l = map Store (filter (fun x => mem x (pb_solve b)) (map fst (pb_phis b))) ++ li ++ map Load (deep_copies b).
Inductive pblocks_access : list pblock -> list access -> Prop :=
| pa_nil : pblocks_access [] []
| pa_cons b bs l l' : pblock_access b l -> pblocks_access bs l' -> pblocks_access (b :: bs) (l ++ l').

(** The blocks from the root of a dominator tree to one of its nodes. *)
Inductive ppath : ptree -> list pblock -> Prop :=
| pp_here b ch : ppath (PNode b ch) [b]
| pp_down b ch t p : In t ch -> ppath t p -> ppath (PNode b ch) (b :: p).

(** The uses of a variable in a block that it did not store before; the blocks of
    a tree. *)
Definition uses (v : string) (b : pblock) : nat := cget (pb_count b) v.
Inductive pin : pblock -> ptree -> Prop :=
| pin_here b ch : pin b (PNode b ch)
| pin_down b b' ch t : In t ch -> pin b t -> pin b (PNode b' ch).
(** A subtree; the blocks of the tree outside it do not use the variable. *)
Inductive all_uses_in (v : string) : ptree -> ptree -> Prop :=
| au_here t : all_uses_in v t t
| au_down b l1 t l2 s : uses v b = 0 -> (forall t' b', In t' (l1 ++ l2) -> pin b' t' -> uses v b' = 0) ->
    all_uses_in v t s -> all_uses_in v (PNode b (l1 ++ t :: l2)) s.
Definition proot (t : ptree) : pblock := match t with PNode b _ => b end.
(** A block reads the register of a variable; the blocks of a tree that read it
    are all in a subtree. *)
Definition reads (v : string) (b : pblock) : Prop := exists l, pblock_access b l /\ In (Load v) l.
Inductive all_reads_in (v : string) : ptree -> ptree -> Prop :=
| ar_here t : all_reads_in v t t
| ar_down b l1 t l2 s : ~ reads v b -> (forall t' b', In t' (l1 ++ l2) -> pin b' t' -> ~ reads v b') ->
    all_reads_in v t s -> all_reads_in v (PNode b (l1 ++ t :: l2)) s.
(** [b] is the block of the tree that defines [v]: it declares it, or it is the
    first block and [v] is in the initial stack; no other block does. *)
Definition defines (t : ptree) (b : pblock) (v : string) : Prop :=
  In v (pb_declared b) \/ b = proot t /\ In v (pb_src b).
Definition only_definition (t : ptree) (b : pblock) (v : string) : Prop :=
  pin b t /\ defines t b v /\ forall b', pin b' t -> defines t b' v -> b' = b.
