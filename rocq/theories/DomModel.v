(** Model of the tree of dominators: src/graphs/algorithms.py:55-63, used by
    src/parser/cfg_block_list.py:165-171 and src/liveness/layout_generation.py:90-98. *)
From Verif Require Import Base CfgModel.
Open Scope list_scope.
(** src/graphs/algorithms.py:59-63.  [idoms] is the dictionary given by
    [nx.immediate_dominators]; the tree is given by its nodes and its edges. *)
Record dtree := { dt_nodes : list string; dt_edges : list (string * string) }.
Definition add_node (x : string) (l : list string) : list string := if mem x l then l else l ++ [x].
Definition dominance_tree (start : string) (idoms : list (string * string)) : dtree :=
  let edges := map (fun uv => (snd uv, fst uv)) (filter (fun uv => negb (String.eqb (fst uv) start)) idoms) in
  {| dt_nodes := add_node start (fold_left (fun l e => add_node (snd e) (add_node (fst e) l)) edges []); dt_edges := edges |}.
(** src/parser/cfg_block_list.py:153-165, as lists of successors; the nodes are
    the names of the blocks.  Simplifications: the copies kept in [self.graph] and
    [self._dominant_tree] are not modelled, and a successor that is not a block,
    which would become a node, is outside of what is proved. *)
Definition to_graph (g : clist) : list (string * list string) := map (fun kb => (fst kb, successors (snd kb))) (cl_blocks g).
