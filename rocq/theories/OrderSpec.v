(** What networkx documents about [condensation] and [topological_sort], for a
    graph given by lists of successors (src/cfg_methods/function_inlining.py:236-239). *)
From Coq Require Import Relations.
From Verif Require Import Base.
Open Scope list_scope.
Section Graph.
Variable g : list (string * list string).
Definition nodes : list string := map fst g.
Definition edge (u v : string) : Prop := exists l, In (u, l) g /\ In v l.
Definition path : string -> string -> Prop := clos_refl_trans string edge.
(** [components] are the strongly connected components of the graph, and edges
    between different ones lead to later ones. *)
Record sorted_components (components : list (list string)) : Prop := {
  sd_once : NoDup (concat components);
  sd_nodes : forall x, In x (concat components) <-> In x nodes;
  sd_same : forall x y, In x nodes -> In y nodes -> (exists m, In m components /\ In x m /\ In y m) <-> path x y /\ path y x;
  sd_sorted : forall u v, edge u v -> ~ (exists m, In m components /\ In u m /\ In v m) ->
    exists l1 m1 l2 m2 l3, components = l1 ++ m1 :: l2 ++ m2 :: l3 /\ In u m1 /\ In v m2
}.
End Graph.
