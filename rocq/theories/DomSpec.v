(** Dominators: a node dominates another one if every way from the start to the
    second goes through the first. *)
From Coq Require Import Relations.
From Verif Require Import Base OrderSpec.
Open Scope list_scope.
Section Graph.
Variables (g : list (string * list string)) (start : string).
(** A walk, with the list of its nodes. *)
Inductive walk : string -> list string -> string -> Prop :=
| walk_end a : walk a [a] a
| walk_step a b l c : edge g a b -> walk b l c -> walk a (a :: l) c.
Definition reachable (b : string) : Prop := exists l, walk start l b.
Definition dominates (a b : string) : Prop := forall l, walk start l b -> In a l.
(** [v] is the last dominator of [u] before [u] itself. *)
Definition immediate (u v : string) : Prop := v <> u /\ dominates v u /\ forall w, w <> u -> dominates w u -> dominates w v.
(** What networkx documents about [immediate_dominators]: a dictionary with the
    nodes that can be reached; what it has for the start depends on the version. *)
Record idoms_ok (idoms : list (string * string)) : Prop := {
  id_once : NoDup (map fst idoms);
  id_nodes : forall u, u <> start -> In u (map fst idoms) <-> reachable u;
  id_immediate : forall u v, In (u, v) idoms -> u <> start -> immediate u v
}.
End Graph.
(** Ways along the edges of a tree. *)
Definition tree_path (edges : list (string * string)) : string -> string -> Prop := clos_refl_trans string (fun u v => In (u, v) edges).
(** The same with the list of the nodes, as [nx.shortest_path] gives it. *)
Inductive tree_walk (edges : list (string * string)) : string -> list string -> string -> Prop :=
| tree_walk_end a : tree_walk edges a [a] a
| tree_walk_step a l b c : tree_walk edges a l b -> In (b, c) edges -> tree_walk edges a (l ++ [c]) c.
(** An order of the nodes in which edges lead forward, as [nx.topological_sort] gives. *)
Definition earlier (order : list string) (a b : string) : Prop := exists l1 l2, order = l1 ++ l2 /\ In a l1 /\ In b l2.
Definition topological (nodes : list string) (edges : list (string * string)) (order : list string) : Prop :=
  NoDup order /\ (forall x, In x order <-> In x nodes) /\ forall u v, In (u, v) edges -> earlier order u v.
