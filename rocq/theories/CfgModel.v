(** Control-flow graph construction and edition: the block list of
    src/parser/cfg_block_list.py, the predecessors of src/parser/parser.py, the
    actions of src/cfg_methods/cfg_block_actions and the combination of blocks of
    src/cfg_methods/sub_block_generation.py. *)
From Verif Require Import Base UtilModel LiveModel.
Open Scope string_scope. Open Scope list_scope.

(** src/parser/cfg_block.py:69-114.  Only the fields the modelled functions read
    or write; [block_id] is the key of the block in its list. *)
Record cblock := {
  cb_instrs : list linstr;
  cb_type : string;
  cb_jump_to : option string;
  cb_falls_to : option string;
  cb_cond : option string;
  cb_comes_from : list string;
  cb_entries : list string;
  cb_split : option linstr
}.
(** src/parser/cfg_block_list.py:21-37 (graph caches and repair fields left out) *)
Record clist := {
  cl_blocks : list (string * cblock);
  cl_start : option string;
  cl_terminal : list string;
  cl_return : list string
}.

(** [CFGBlock(id, instructions, type, assignment_dict)], src/parser/cfg_block.py:74-114 *)
Definition new_block (instrs : list linstr) (type : string) : cblock :=
  {| cb_instrs := instrs; cb_type := type; cb_jump_to := None; cb_falls_to := None; cb_cond := None;
     cb_comes_from := []; cb_entries := []; cb_split := None |}.

(** The setters of src/parser/cfg_block.py: set_jump_to 252-253, set_falls_to
    255-256, set_condition 143-144, set_comes_from 243-244, entries 136-138,
    split_instruction 128-130, insert_instruction 185-186. *)
Definition set_jump_to (v : option string) (b : cblock) : cblock :=
  {| cb_instrs := cb_instrs b; cb_type := cb_type b; cb_jump_to := v; cb_falls_to := cb_falls_to b; cb_cond := cb_cond b;
     cb_comes_from := cb_comes_from b; cb_entries := cb_entries b; cb_split := cb_split b |}.
Definition set_falls_to (v : option string) (b : cblock) : cblock :=
  {| cb_instrs := cb_instrs b; cb_type := cb_type b; cb_jump_to := cb_jump_to b; cb_falls_to := v; cb_cond := cb_cond b;
     cb_comes_from := cb_comes_from b; cb_entries := cb_entries b; cb_split := cb_split b |}.
Definition set_cond (v : option string) (b : cblock) : cblock :=
  {| cb_instrs := cb_instrs b; cb_type := cb_type b; cb_jump_to := cb_jump_to b; cb_falls_to := cb_falls_to b; cb_cond := v;
     cb_comes_from := cb_comes_from b; cb_entries := cb_entries b; cb_split := cb_split b |}.
Definition set_comes_from (v : list string) (b : cblock) : cblock :=
  {| cb_instrs := cb_instrs b; cb_type := cb_type b; cb_jump_to := cb_jump_to b; cb_falls_to := cb_falls_to b; cb_cond := cb_cond b;
     cb_comes_from := v; cb_entries := cb_entries b; cb_split := cb_split b |}.
Definition set_entries (v : list string) (b : cblock) : cblock :=
  {| cb_instrs := cb_instrs b; cb_type := cb_type b; cb_jump_to := cb_jump_to b; cb_falls_to := cb_falls_to b; cb_cond := cb_cond b;
     cb_comes_from := cb_comes_from b; cb_entries := v; cb_split := cb_split b |}.
Definition set_instrs (v : list linstr) (b : cblock) : cblock :=
  {| cb_instrs := v; cb_type := cb_type b; cb_jump_to := cb_jump_to b; cb_falls_to := cb_falls_to b; cb_cond := cb_cond b;
     cb_comes_from := cb_comes_from b; cb_entries := cb_entries b; cb_split := cb_split b |}.
Definition set_split (v : option linstr) (b : cblock) : cblock :=
  {| cb_instrs := cb_instrs b; cb_type := cb_type b; cb_jump_to := cb_jump_to b; cb_falls_to := cb_falls_to b; cb_cond := cb_cond b;
     cb_comes_from := cb_comes_from b; cb_entries := cb_entries b; cb_split := v |}.

Definition opt_list (o : option string) : list string := match o with Some x => [x] | None => [] end.
(** src/parser/cfg_block.py:219-221 *)
Definition successors (b : cblock) : list string := opt_list (cb_jump_to b) ++ opt_list (cb_falls_to b).

Definition opt_eqb (a b : option string) : bool :=
  match a, b with Some x, Some y => String.eqb x y | None, None => true | _, _ => false end.

(** A change of the object stored under a key. *)
Definition put_block (id : string) (b : cblock) (g : clist) : clist :=
  {| cl_blocks := dict_set id b (cl_blocks g); cl_start := cl_start g; cl_terminal := cl_terminal g; cl_return := cl_return g |}.
Definition get_block (id : string) (g : clist) : result cblock := of_option (lookup id (cl_blocks g)).

(** src/parser/cfg_block_list.py:47-72 (the warning is left out) *)
Definition add_block (id : string) (b : cblock) (is_start : bool) (g : clist) : result clist :=
  let first := match cl_blocks g with [] => true | _ => false end || is_start in
  do _ <- py_assert (negb first || opt_eqb (cl_start g) None);
  Ok {| cl_blocks := dict_set id b (cl_blocks g);
        cl_start := if first then Some id else cl_start g;
        cl_terminal := if mem (cb_type b) ["FunctionReturn"; "mainExit"; "terminal"] then cl_terminal g ++ [id] else cl_terminal g;
        cl_return := if String.eqb (cb_type b) "FunctionReturn" then cl_return g ++ [id] else cl_return g |}.

Definition del {A} (id : string) (d : list (string * A)) : list (string * A) :=
  filter (fun kv => negb (String.eqb (fst kv) id)) d.
Definition without (id : string) (l : list string) : list string := filter (fun x => negb (String.eqb x id)) l.

(** src/parser/cfg_block_list.py:77-92 *)
Definition remove_block (id : string) (g : clist) : result clist :=
  match lookup id (cl_blocks g) with
  | None => Raise OtherError
  | Some _ =>
      Ok {| cl_blocks := del id (cl_blocks g);
            cl_start := if opt_eqb (Some id) (cl_start g) then None else cl_start g;
            cl_terminal := without id (cl_terminal g);
            cl_return := without id (cl_return g) |}
  end.

(** src/cfg_methods/cfg_block_actions/utils.py:6-30 *)
Definition subst (old new x : string) : string := if String.eqb x old then new else x.
Definition modify_comes_from (id : string) (previous : option string) (new : string) (g : clist) : result clist :=
  do b <- get_block id g;
  match previous with
  | Some old =>
      let g' := put_block id (set_entries (map (subst old new) (cb_entries b))
                               (set_comes_from (map (subst old new) (cb_comes_from b)) b)) g in
      do _ <- py_assert (mem old (cb_comes_from b));
      Ok g'
  | None => Ok (put_block id (set_comes_from (cb_comes_from b ++ [new]) b) g)
  end.

(** src/cfg_methods/cfg_block_actions/utils.py:33-49 *)
Definition modify_successors (id : string) (previous : option string) (new : string) (g : clist) : result clist :=
  do b <- get_block id g;
  if match previous with None => true | Some _ => opt_eqb (cb_jump_to b) previous end
  then Ok (put_block id (set_jump_to (Some new) b) g)
  else do _ <- py_assert (opt_eqb (cb_falls_to b) previous);
       Ok (put_block id (set_falls_to (Some new) b) g).

Definition opt_modify_comes_from (target : option string) (old new : string) (g : clist) : result clist :=
  match target with Some t => modify_comes_from t (Some old) new g | None => Ok g end.

(** src/cfg_methods/cfg_block_actions/split_block.py:8-12 *)
Definition first_id (id : string) : string := (id ++ "f")%string.
Definition second_id (id : string) : string := (id ++ "s")%string.

(** src/cfg_methods/cfg_block_actions/split_block.py:30-88.  The block object is
    the one stored in the list: its fields are read again after the predecessors
    have been updated.  [previous_type] is left out. *)
Definition split_block (id : string) (instr_idx : nat) (g : clist) : result clist :=
  do b <- get_block id g;
  let is_start := opt_eqb (Some id) (cl_start g) in
  let cut := instr_idx + 1 in
  let first := set_falls_to (Some (second_id id)) (set_comes_from (cb_comes_from b) (set_entries (cb_entries b)
                 (new_block (firstn cut (cb_instrs b)) "sub_block"))) in
  do g1 <- for_each (fun g p => modify_successors p (Some id) (first_id id) g) (cb_comes_from b) g;
  do b1 <- get_block id g1;
  let second := set_cond (cb_cond b1) (set_jump_to (cb_jump_to b1) (set_falls_to (cb_falls_to b1)
                 (set_comes_from [first_id id] (new_block (skipn cut (cb_instrs b)) (cb_type b))))) in
  do g2 <- opt_modify_comes_from (cb_jump_to b1) id (second_id id) g1;
  do g3 <- opt_modify_comes_from (cb_falls_to b1) id (second_id id) g2;
  do g4 <- remove_block id g3;
  do g5 <- add_block (first_id id) first is_start g4;
  add_block (second_id id) second false g5.

(** src/cfg_methods/cfg_block_actions/merge_blocks.py:10-14 and 31-90 *)
Definition merge_blocks (a b : string) (g : clist) : result clist :=
  do ba <- get_block a g;
  do bb <- get_block b g;
  let is_start := opt_eqb (Some a) (cl_start g) in
  let preds_first := cb_comes_from ba in
  let preds_second := without a (cb_comes_from bb) in
  let combined := set_falls_to (cb_falls_to bb) (set_jump_to (cb_jump_to bb) (set_comes_from (preds_first ++ preds_second)
                    (set_cond (cb_cond bb) (set_entries (cb_entries ba)
                      (new_block (cb_instrs ba ++ cb_instrs bb) (cb_type bb)))))) in
  do g1 <- for_each (fun g p => modify_successors p (Some a) a g) preds_first g;
  do g2 <- for_each (fun g p => modify_successors p (Some b) a g) preds_second g1;
  do g3 <- opt_modify_comes_from (cb_jump_to bb) b a g2;
  do g4 <- opt_modify_comes_from (cb_falls_to bb) b a g3;
  do g5 <- remove_block a g4;
  do g6 <- remove_block b g5;
  add_block a combined is_start g6.

(** src/cfg_methods/utils.py:10-21.  [fuel] bounds the recursion. *)
Fixpoint union_find_search (fuel : nat) (x : string) (d : list (string * string)) : result (string * list (string * string)) :=
  match fuel with
  | O => Raise OutOfFuel
  | S fuel' =>
      let next := match lookup x d with Some y => y | None => x end in
      if String.eqb next x then Ok (x, d)
      else do ad <- union_find_search fuel' next d;
           Ok (fst ad, dict_set x (fst ad) (snd ad))
  end.

(** The networkx graph of src/parser/cfg_block_list.py:153-165: the distinct
    successors and predecessors of a node. *)
Definition graph_succs (g : clist) (id : string) : list string :=
  match lookup id (cl_blocks g) with Some b => nodup string_dec (successors b) | None => [] end.
Definition graph_preds (g : clist) (id : string) : list string :=
  map fst (filter (fun kb => mem id (successors (snd kb))) (cl_blocks g)).

(** src/cfg_methods/sub_block_generation.py:214-237.  Simplification: the nodes
    are the blocks of the list (an edge to an unknown block raises below). *)
Definition last_op (l : list linstr) : option string := match rev l with i :: _ => Some (li_op i) | [] => None end.
Definition can_merge (split_ops function_names : list string) (first second : cblock) : bool :=
  match cb_instrs first, cb_instrs second with
  | [], _ | _, [] => true
  | _, _ => match last_op (cb_instrs first) with
            | Some op => negb (mem op (split_ops ++ function_names ++ ["JUMP"; "JUMPI"]))
            | None => true
            end
  end.
Definition nodes_to_merge (split_ops function_names : list string) (g : clist) : result (list (string * string)) :=
  for_each (fun acc node =>
      match graph_succs g node with
      | [target] =>
          do fb <- get_block node g;
          do sb <- get_block target g;
          Ok (if Nat.eqb (length (graph_preds g target)) 1 && can_merge split_ops function_names fb sb
              then acc ++ [(node, target)] else acc)
      | _ => Ok acc
      end) (map fst (cl_blocks g)) [].

(** src/cfg_methods/sub_block_generation.py:180-205.  [length d + 1] steps are
    enough for the searches (theorem [search_fuel]). *)
Definition combine_step (st : clist * list (string * string)) (pair : string * string) : result (clist * list (string * string)) :=
  let (g, renamed) := st in
  do fr <- union_find_search (length renamed + 1) (fst pair) renamed;
  do sr <- union_find_search (length renamed + 1) (snd pair) (snd fr);
  do g' <- merge_blocks (fst fr) (fst sr) g;
  Ok (g', dict_set (fst sr) (fst fr) (dict_set (fst fr) (fst fr) (snd sr))).
Definition combine_blocks_block_list (split_ops function_names : list string) (g : clist) : result clist :=
  do pairs <- nodes_to_merge split_ops function_names g;
  do st <- for_each combine_step pairs (g, []);
  Ok (fst st).

(** [nx.descendants] with its source: as many rounds as there are blocks. *)
Fixpoint reach_rounds (n : nat) (g : clist) (s : list string) : list string :=
  match n with O => s | S n' => reach_rounds n' g (nodup string_dec (s ++ flat_map (graph_succs g) s)) end.
(** src/cfg_methods/sub_block_generation.py:208-211 and 240-244 *)
Definition nodes_to_remove (g : clist) (start : string) : list string :=
  filter (fun x => negb (mem x (reach_rounds (length (cl_blocks g)) g [start]))) (map fst (cl_blocks g)).
Definition remove_blocks_block_list (g : clist) : result clist :=
  do start <- of_option (cl_start g);
  for_each (fun g x => remove_block x g) (nodes_to_remove g start) g.

(** One block of the JSON input: identifier and [exit] (type, targets, cond) with
    the names already prefixed (src/parser/parser.py:81-86), entries and parsed
    instructions. *)
Record jblock := { j_id : string; j_type : string; j_targets : list string; j_cond : option string;
                   j_returns : list string; j_entries : list string; j_instrs : list linstr }.

(** src/parser/cfg_block.py:291-325.  An unknown exit type leaves the type of
    the JSON block.  The returned values are reversed at line 296 and once more by
    the constructor of the instruction (src/parser/cfg_instruction.py:129). *)
Definition set_jump_info (j : jblock) (block_type : string) : result cblock :=
  let b := set_entries (j_entries j) (new_block (j_instrs j) block_type) in
  let typed t := set_entries (j_entries j) (new_block (j_instrs j) t) in
  if String.eqb (j_type j) "ConditionalJump" then
    do f <- of_option (nth_error (j_targets j) 0);
    do t <- of_option (nth_error (j_targets j) 1);
    do c <- of_option (j_cond j);
    Ok (set_cond (Some c) (set_jump_to (Some t) (set_falls_to (Some f) (typed "conditional"))))
  else if String.eqb (j_type j) "Jump" then
    do t <- of_option (nth_error (j_targets j) 0);
    Ok (set_jump_to (Some t) (typed "unconditional"))
  else if String.eqb (j_type j) "Terminated" then Ok (typed "terminal")
  else if String.eqb (j_type j) "" then Ok (typed "falls_to")
  else if String.eqb (j_type j) "MainExit" then Ok (typed "mainExit")
  else if String.eqb (j_type j) "FunctionReturn" then
    let ret := {| li_op := "functionReturn"; li_ins := j_returns j; li_outs := []; li_lits := None |} in
    Ok (set_split (Some ret) (set_instrs (j_instrs j ++ [ret]) (typed "FunctionReturn")))
  else Ok b.

(** src/parser/parser.py:120-128 *)
Definition add_comes_from (p : string) (b : cblock) : cblock := set_comes_from (cb_comes_from b ++ [p]) b.
Definition update_comes_from (comes_from : list (string * list string)) (g : clist) : result clist :=
  for_each (fun g kv =>
      for_each (fun g p =>
          if String.eqb (fst kv) p then Ok g
          else do b <- get_block (fst kv) g; Ok (put_block (fst kv) (add_comes_from p b) g)) (snd kv) g)
    comes_from g.
(** src/parser/parser.py:131-161, without the translation of opcodes. *)
Definition annotate (d : list (string * list string)) (succ id : string) : list (string * list string) :=
  dict_set succ (match lookup succ d with Some l => l | None => [] end ++ [id]) d.
Definition parse_step (block_type : string) (st : clist * list (string * list string)) (j : jblock) : result (clist * list (string * list string)) :=
  do b <- set_jump_info j block_type;
  do g <- add_block (j_id j) b false (fst st);
  Ok (g, fold_left (fun d t => annotate d t (j_id j)) (j_targets j) (snd st)).
Definition empty_list : clist := {| cl_blocks := []; cl_start := None; cl_terminal := []; cl_return := [] |}.
Definition parse_block_list (block_type : string) (js : list jblock) : result clist :=
  do st <- for_each (parse_step block_type) js (empty_list, []);
  update_comes_from (snd st) (fst st).
