(** Specification side of C51. *)
From Verif Require Import Base UtilModel LiveModel CfgModel JumpModel JumpSpec ConstModel.
Open Scope string_scope. Open Scope list_scope.

(** Phi functions have one argument for each entry of the block; the recorded
    last instruction is one of the instructions. *)
Definition phis_match (b : cblock) : Prop :=
  (forall i, In i (cb_instrs b) -> li_op i = "PhiFunction" -> length (li_ins i) = length (cb_entries b))
  /\ (forall i, cb_split b = Some i -> In i (cb_instrs b)).
Definition phis_match_object (ob : cobject) : Prop :=
  forall c g, component ob c g -> forall x b, In (x, b) (cl_blocks g) -> phis_match b.

Inductive in_tree (x : string) : tree -> Prop :=
| Root ts : in_tree x (Node x ts)
| Below y t ts : In t ts -> in_tree x t -> in_tree x (Node y ts).
