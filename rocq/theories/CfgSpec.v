(** Specification of a well-formed control-flow graph and of its executions. *)
From Verif Require Import Base UtilModel LiveModel CfgModel.
Open Scope string_scope. Open Scope list_scope.

(** How many times [a] jumps or falls to [b], read in [a] and read in [b]. *)
Definition departures (g : clist) (a b : string) : nat :=
  match lookup a (cl_blocks g) with Some blk => count b (successors blk) | None => 0 end.
Definition arrivals (g : clist) (a b : string) : nat :=
  match lookup b (cl_blocks g) with Some blk => count a (cb_comes_from blk) | None => 0 end.

Definition has_type (types : list string) (g : clist) (x : string) : Prop :=
  exists blk, lookup x (cl_blocks g) = Some blk /\ In (cb_type blk) types.

(** The links of the blocks agree: since a block that is not in the list has no
    departures and no arrivals, every successor and every predecessor exists. *)
Record consistent (g : clist) : Prop := {
  c_keys : NoDup (map fst (cl_blocks g));
  c_links : forall a b, arrivals g a b = departures g a b;
  c_entries : forall x blk, lookup x (cl_blocks g) = Some blk -> incl (cb_entries blk) (cb_comes_from blk);
  c_start : exists s, cl_start g = Some s /\ In s (map fst (cl_blocks g));
  c_terminal : forall x, In x (cl_terminal g) <-> has_type ["FunctionReturn"; "mainExit"; "terminal"] g x;
  c_return : forall x, In x (cl_return g) <-> has_type ["FunctionReturn"] g x
}.

(** A walk follows the links. *)
Definition edge (g : clist) (a b : string) : Prop :=
  exists blk, lookup a (cl_blocks g) = Some blk /\ (cb_jump_to blk = Some b \/ cb_falls_to blk = Some b).
Fixpoint walk (g : clist) (p : list string) : Prop :=
  match p with
  | [] => False
  | [x] => In x (map fst (cl_blocks g))
  | x :: (y :: _) as p' => edge g x y /\ walk g p'
  end.
(** What the execution along a walk does: the instructions of each block and, at
    the end of a block with a condition, the outcome of the test ([true] when the
    jump is taken). *)
Inductive event := Do (i : linstr) | Test (v : string) (taken : bool).
Definition actions (g : clist) (x : string) : list event :=
  match lookup x (cl_blocks g) with Some blk => map Do (cb_instrs blk) | None => [] end.
Definition branch (g : clist) (x y : string) : list event :=
  match lookup x (cl_blocks g) with
  | Some blk => match cb_cond blk with Some v => [Test v (opt_eqb (cb_jump_to blk) (Some y))] | None => [] end
  | None => []
  end.
Fixpoint trace (g : clist) (p : list string) : list event :=
  match p with
  | [] => []
  | x :: p' => actions g x ++ match p' with y :: _ => branch g x y ++ trace g p' | [] => [] end
  end.

(** Complete executions from the start block, and what executions (finite or
    not) do in a finite time. *)
Definition from_start (g : clist) (p : list string) : Prop := walk g p /\ hd_error p = cl_start g.
Definition runs (g : clist) (t : list event) : Prop :=
  exists p x, from_start g (p ++ [x]) /\ (forall y, ~ edge g x y) /\ trace g (p ++ [x]) = t.
Definition begins (g : clist) (t : list event) : Prop :=
  exists p u, from_start g p /\ trace g p = t ++ u.
Definition equivalent (g g' : clist) : Prop := (forall t, runs g t <-> runs g' t) /\ (forall t, begins g t <-> begins g' t).

(** The other blocks after an edition: links to [old_in] become links to
    [new_in], links from [old_out] become links from [new_out]. *)
Definition relinked (old_in new_in old_out new_out : string) (b b' : cblock) : Prop :=
  cb_instrs b' = cb_instrs b /\ cb_type b' = cb_type b /\ cb_cond b' = cb_cond b /\ cb_split b' = cb_split b
  /\ cb_jump_to b' = option_map (subst old_in new_in) (cb_jump_to b)
  /\ cb_falls_to b' = option_map (subst old_in new_in) (cb_falls_to b)
  /\ cb_comes_from b' = map (subst old_out new_out) (cb_comes_from b)
  /\ cb_entries b' = map (subst old_out new_out) (cb_entries b).
