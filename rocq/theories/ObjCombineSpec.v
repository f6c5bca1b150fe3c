(** The objects whose blocks are combined (C45). *)
From Coq Require Import Relations.
From Verif Require Import Base UtilModel LiveModel CfgModel CfgSpec MergePassProps RemoveProps JumpModel JumpSpec.
Open Scope string_scope. Open Scope list_scope.

(** Exits agree with their types. *)
Definition typed_exits (g : clist) : Prop := forall x b, lookup x (cl_blocks g) = Some b ->
  (cb_type b = "mainExit" -> successors b = []) /\ (cb_type b = "conditional" -> cb_jump_to b <> None /\ cb_falls_to b <> None).
(** Blocks with at most one predecessor have no phi function. *)
Definition joins_have_phis (g : clist) : Prop := forall x b, lookup x (cl_blocks g) = Some b -> length (cb_comes_from b) <= 1 ->
  forall i, In i (cb_instrs b) -> li_op i <> "PhiFunction".

(** What the combination of blocks needs: [consistent], [tidy], [start_first]
    and [no_closed_chain] are those of C23 (see [merge_loop_refuted] and
    [merge_coinciding_targets_refuted] for why). *)
Record combinable (ob : cobject) : Prop := {
  cm_names : NoDup (map fst (ob_functions ob));
  cm_consistent : forall c g, component ob c g -> consistent g;
  cm_tidy : forall c g, component ob c g -> MergePassProps.tidy g;
  cm_start : forall c g, component ob c g -> start_first g;
  cm_chain : forall c g, component ob c g -> no_closed_chain g;
  cm_typed : forall c g, component ob c g -> typed_exits g;
  cm_joins : forall c g, component ob c g -> joins_have_phis g
}.

(** An empty block from which the component ends without doing anything. *)
Inductive runs_out (g : clist) (x : string) : Prop :=
| out_here b : lookup x (cl_blocks g) = Some b -> cb_instrs b = [] -> cb_type b = "mainExit" \/ successors b = [] -> runs_out g x
| out_later b y : lookup x (cl_blocks g) = Some b -> cb_instrs b = [] -> edge g x y -> runs_out g y -> runs_out g x.

(** An empty block that leads nowhere, such as the rest of a block after an
    inlined call that does not return. *)
Definition set_apart (g : clist) (x : string) : Prop := exists b, lookup x (cl_blocks g) = Some b /\ cb_instrs b = [] /\ successors b = [].

(** What the passes that follow need, besides [object_ok] and
    [object_readable]. *)
Record separable (ob : cobject) : Prop := {
  sp_reach : forall c g s x, component ob c g -> cl_start g = Some s -> In x (map fst (cl_blocks g)) -> reachable g s x \/ set_apart g x;
  sp_leaving : forall c g x b i, component ob c g -> lookup x (cl_blocks g) = Some b -> In i (cb_instrs b) -> In (li_op i) leaving -> successors b = [];
  (* after a call that returns there is something left to do *)
  sp_calls : forall c g x b pre i y, component ob c g -> lookup x (cl_blocks g) = Some b -> cb_instrs b = pre ++ [i] -> In (li_op i) (map fst (ob_functions ob)) ->
    return_name ob (Some (li_op i)) <> None -> edge g x y -> ~ runs_out g y
}.
