(** Model of the choice and the order of the functions inlined in an object:
    src/cfg_methods/function_inlining.py. *)
From Verif Require Import Base UtilModel LiveModel CfgModel InlineModel JumpModel ObjInlineModel.
Open Scope string_scope. Open Scope list_scope.

(** src/parser/cfg_block.py:164-165 *)
Definition without_phis (l : list linstr) : list linstr := filter (fun i => negb (String.eqb (li_op i) "PhiFunction")) l.
(** src/cfg_methods/function_inlining.py:156-159 *)
Definition number_phis (l : list linstr) : nat := length (filter (fun i => String.eqb (li_op i) "PhiFunction") l).

(** A call: the position among the instructions that are not phi functions, the
    block, and the component ([None] for the main code). *)
Definition site : Type := nat * string * option string.
(** src/cfg_methods/function_inlining.py:75-77, the loop over the instructions
    of a block, from position [n] on *)
Fixpoint calls_from (fns : list string) (c : option string) (id : string) (n : nat) (l : list linstr) : list (string * site) :=
  match l with
  | [] => []
  | i :: l' => (if mem (li_op i) fns then [(li_op i, (n, id, c))] else []) ++ calls_from fns c id (S n) l'
  end.
(** src/cfg_methods/function_inlining.py:69-77 *)
Definition list_calls (fns : list string) (c : option string) (g : clist) : list (string * site) :=
  flat_map (fun kb => calls_from fns c (fst kb) 0 (without_phis (cb_instrs (snd kb)))) (cl_blocks g).
(** src/cfg_methods/function_inlining.py:52-60.  Simplification: the dictionary
    from functions to lists of calls is one list of pairs, in the order in which
    the calls are appended; [calls_of] reads it. *)
Definition function_calls (ob : cobject) : list (string * site) :=
  let fns := map fst (ob_functions ob) in
  list_calls fns None (ob_main ob) ++ flat_map (fun fk => list_calls fns (Some (fst fk)) (fn_blocks (snd fk))) (ob_functions ob).
Definition calls_of (info : list (string * site)) (f : string) : list site := map snd (filter (fun e => String.eqb (fst e) f) info).

(** src/cfg_methods/function_inlining.py:135-153, from the [i]-th piece on.
    Simplification: the position of a call already inlined would become
    negative in Python; here this raises. *)
Fixpoint determine_idx (i n : nat) (pieces : list string) (g : clist) : result (nat * nat) :=
  match pieces with
  | [] => Raise OtherError
  | x :: pieces' =>
      do blk <- get_block x g;
      let k := length (without_phis (cb_instrs blk)) in
      if Nat.ltb n k then Ok (i, n + number_phis (cb_instrs blk))
      else if Nat.eqb n k then Raise OtherError
      else determine_idx (S i) (n - (k + 1)) pieces' g
  end.

(** The pieces into which the blocks of the initial object have been split. *)
Definition pieces_dict : Type := list (string * list string).
(** src/cfg_methods/function_inlining.py:88-132, the body of the loop.  A
    function is inlined when it has one call (line 96; [_must_be_inlined], line
    186, asks the same).  The costs (line 93) are not modelled: they do not
    change the object.  With one call the function is not copied (line 196). *)
Definition inline_next (info : list (string * site)) (st : cobject * pieces_dict) (f : string) : result (cobject * pieces_dict) :=
  let '(ob, cur) := st in
  do _ <- of_option (lookup f (ob_functions ob));
  match calls_of info f with
  | [(n, id, c)] =>
      do g <- get_block_list ob c;
      let pieces := match lookup id cur with Some l => l | None => [id] end in
      do jp <- (if Nat.ltb 1 (length pieces) then determine_idx 0 n pieces g
                else do x <- of_option (nth_error pieces 0); do blk <- get_block x g; Ok (0, n + number_phis (cb_instrs blk)));
      do x <- of_option (nth_error pieces (fst jp));
      do ob' <- inline_call ob c x (snd jp) f;
      Ok (ob', dict_set id (firstn (fst jp) pieces ++ [first_id x; second_id x] ++ skipn (fst jp + 1) pieces) cur)
  | _ => Ok st
  end.
(** src/cfg_methods/function_inlining.py:81-132.  [order] is the list computed
    at line 86 by [prune_cycles_topological_sort] with the networkx library. *)
Definition inline_functions (order : list string) (ob : cobject) : result cobject :=
  do st <- for_each (inline_next (function_calls ob)) order (ob, []);
  Ok (fst st).
