(** Specification side of C43: where jumps, calls and returns go after tags have
    been inserted, and on which objects this is claimed. *)
From Verif Require Import Base UtilModel LiveModel CfgModel CfgSpec JumpModel.
From Verif Require Import SpecProofs.
Open Scope string_scope. Open Scope list_scope.

(** The components of an object: the main code ([None]) and the functions. *)
Definition component (ob : cobject) (c : option string) (g : clist) : Prop :=
  match c with None => ob_main ob = g | Some f => exists k, lookup f (ob_functions ob) = Some k /\ fn_blocks k = g end.
(** The name of the return address of a component, if it returns. *)
Definition return_name (ob : cobject) (c : option string) : option string :=
  match c with
  | None => None
  | Some f => match lookup f (ob_functions ob) with
              | Some k => match cl_return (fn_blocks k) with [] => None | _ => Some ("out_" ++ f)%string end
              | None => None
              end
  end.

(** The block pushes the tag [t]; its last instruction is [i]. *)
Definition pushes (b : cblock) (t : nat) : Prop :=
  In {| li_op := "PUSH [tag]"; li_ins := []; li_outs := [str_nat t]; li_lits := None |} (cb_instrs b).
Definition ends_with (b : cblock) (op : string) (ins outs : list string) : Prop :=
  exists pre, cb_instrs b = pre ++ [{| li_op := op; li_ins := ins; li_outs := outs; li_lits := None |}]
    /\ cb_split b = Some {| li_op := op; li_ins := ins; li_outs := outs; li_lits := None |}.

(** The phi functions come first. *)
Definition phis_first (l : list linstr) : Prop := exists phis others, l = phis ++ others
  /\ (forall i, In i phis -> li_op i = "PhiFunction") /\ (forall i, In i others -> li_op i <> "PhiFunction").

(** Instructions after which control does not go on to the next one. *)
Definition leaving : list string := ["JUMP"; "JUMPI"; "functionReturn"; "return"; "revert"; "stop"; "selfdestruct"].

(** Tags are written in decimal. *)
Definition numeral (x : string) : bool := negb (String.eqb x "") && forallb is_digit_char (list_ascii_of_string x).

(** A block of the result.  Jumps carry the tag of the block they go to; calls
    come last, carry first the tag of the first block of the function and last
    the tag of the block that follows; returns carry the address. *)
Record placed (ob : cobject) (tags : list (string * nat)) (ret : option string) (b : cblock) : Prop := {
  pl_jump : cb_type b = "unconditional" -> exists j t, cb_jump_to b = Some j /\ cb_falls_to b = None /\ lookup j tags = Some t
    /\ pushes b t /\ ends_with b "JUMP" [str_nat t] [];
  pl_jumpi : cb_type b = "conditional" -> exists j f c t, cb_jump_to b = Some j /\ cb_falls_to b = Some f /\ cb_cond b = Some c
    /\ lookup j tags = Some t /\ pushes b t /\ ends_with b "JUMPI" [str_nat t; c] [];
  pl_return : cb_type b = "FunctionReturn" -> exists r vs, ret = Some r /\ ~ In r vs /\ ends_with b "functionReturn" (r :: vs) [];
  pl_calls : forall pre i post k, cb_instrs b = pre ++ i :: post -> lookup (li_op i) (ob_functions ob) = Some k ->
    post = [] /\ cb_split b = Some i /\ exists s t args back, cl_start (fn_blocks k) = Some s /\ lookup s tags = Some t /\ pushes b t
    /\ li_ins i = str_nat t :: args ++ back /\ (forall v, In v args -> numeral v = false)
    /\ match successors b with
       | [] => back = []
       | next :: more => more = [] /\ exists t', lookup next tags = Some t' /\ pushes b t' /\ back = [str_nat t']
       end;
  pl_phis : phis_first (cb_instrs b);
  (* the instruction that ends the block is recorded exactly when there is one *)
  pl_split : cb_split b = match rev (cb_instrs b) with
                          | i :: _ => if mem (li_op i) (leaving ++ map fst (ob_functions ob)) then Some i else None
                          | [] => None
                          end;
  (* control is only transferred at the end, and only addresses are pushed for tags *)
  pl_inner : forall i, In i (removelast (cb_instrs b)) -> ~ In (li_op i) leaving
    /\ (li_op i = "PUSH [tag]" -> exists t, i = {| li_op := "PUSH [tag]"; li_ins := []; li_outs := [str_nat t]; li_lits := None |});
  pl_last : forall pre i, cb_instrs b = pre ++ [i] -> li_op i <> "PUSH [tag]" /\ (li_op i = "functionReturn" -> cb_type b = "FunctionReturn")
    /\ (li_op i = "JUMP" -> cb_type b = "unconditional") /\ (li_op i = "JUMPI" -> cb_type b = "conditional");
  pl_other : cb_type b <> "unconditional" -> cb_type b <> "conditional" -> cb_jump_to b = None
}.

(** Tags are positive and belong to one block. *)
Definition distinct_tags (tags : list (string * nat)) : Prop :=
  (forall x t, lookup x tags = Some t -> 1 <= t) /\ (forall x y t, lookup x tags = Some t -> lookup y tags = Some t -> x = y).

(** What an event was before the passes: pushes of tags and jumps are new, calls
    have extra tags and returns the extra address [r]. *)
Definition before (fns : list string) (ret : option string) (e : event) : list event :=
  match e with
  | Do i =>
      if mem (li_op i) ["PUSH [tag]"; "JUMP"; "JUMPI"] then []
      else if mem (li_op i) fns then [Do {| li_op := li_op i; li_ins := filter (fun x => negb (numeral x)) (li_ins i); li_outs := li_outs i; li_lits := li_lits i |}]
      else if String.eqb (li_op i) "functionReturn" then
        [Do {| li_op := li_op i; li_ins := filter (fun x => negb (opt_eqb (Some x) ret)) (li_ins i); li_outs := li_outs i; li_lits := li_lits i |}]
      else [e]
  | Test _ _ => [e]
  end.
(** The executions of [g'] are those of [g], once the additions are removed. *)
Definition executions_kept (fns : list string) (ret : option string) (g g' : clist) : Prop :=
  (forall t, runs g t <-> exists t', runs g' t' /\ flat_map (before fns ret) t' = t)
  /\ (forall t, begins g t <-> exists t', begins g' t' /\ flat_map (before fns ret) t' = t).

(** Words over the suffixes given to halves of blocks. *)
Definition fs_word (w : string) : Prop := forall c, In c (list_ascii_of_string w) -> c = "f"%char \/ c = "s"%char.
Definition block_name (ob : cobject) (c : option string) (x : string) : Prop := exists g, component ob c g /\ In x (map fst (cl_blocks g)).

(** An exit before the passes. *)
Definition exit_ok (b : cblock) : Prop :=
  (cb_type b = "unconditional" -> cb_jump_to b <> None /\ cb_falls_to b = None)
  /\ (cb_type b = "conditional" -> cb_jump_to b <> None /\ cb_falls_to b <> None /\ cb_cond b <> None)
  /\ (cb_type b = "FunctionReturn" -> successors b = [] /\ exists pre vs, cb_instrs b = pre ++ [{| li_op := "functionReturn"; li_ins := vs; li_outs := []; li_lits := None |}])
  /\ (cb_type b <> "unconditional" -> cb_type b <> "conditional" -> cb_jump_to b = None).

(** The objects considered. *)
Record object_ok (ob : cobject) : Prop := {
  oo_functions : NoDup (map fst (ob_functions ob));
  oo_reserved : forall f, In f (map fst (ob_functions ob)) -> ~ In f ["PUSH [tag]"; "JUMP"; "JUMPI"; "functionReturn"; "PhiFunction"];
  oo_main : cl_return (ob_main ob) = [];
  oo_consistent : forall c g, component ob c g -> consistent g;
  (* no block jumps to itself, no conditional jump with both targets equal *)
  oo_links : forall c g x b, component ob c g -> lookup x (cl_blocks g) = Some b -> ~ In x (successors b) /\ NoDup (successors b);
  oo_exits : forall c g x b, component ob c g -> lookup x (cl_blocks g) = Some b -> exit_ok b;
  oo_phis : forall c g x b, component ob c g -> lookup x (cl_blocks g) = Some b -> phis_first (cb_instrs b);
  oo_split : forall c g x b i, component ob c g -> lookup x (cl_blocks g) = Some b -> cb_split b = Some i ->
    In (li_op i) (leaving ++ map fst (ob_functions ob)) /\ exists pre, cb_instrs b = pre ++ [i];
  (* control is only transferred at the end of a block *)
  oo_leaving : forall c g x b pre i post, component ob c g -> lookup x (cl_blocks g) = Some b -> cb_instrs b = pre ++ i :: post -> In (li_op i) leaving ->
    post = [] /\ ~ In (cb_type b) ["unconditional"; "conditional"] /\ (li_op i = "functionReturn" -> cb_type b = "FunctionReturn");
  (* there are no tags, jumps or return addresses yet *)
  oo_plain : forall c g x b i, component ob c g -> lookup x (cl_blocks g) = Some b -> In i (cb_instrs b) ->
    ~ In (li_op i) ["PUSH [tag]"; "JUMP"; "JUMPI"]
    /\ (In (li_op i) (map fst (ob_functions ob)) -> forall v, In v (li_ins i) -> numeral v = false)
    /\ (li_op i = "functionReturn" -> forall r, return_name ob c = Some r -> ~ In r (li_ins i));
  (* block names are distinct, and stay so when suffixes are added *)
  oo_names : forall c1 c2 x y w, block_name ob c1 x -> block_name ob c2 y -> fs_word w -> y = (x ++ w)%string -> x = y /\ c1 = c2
}.
