(** Insertion of jumps and tags, and splitting of blocks at function calls:
    src/cfg_methods/jump_insertion.py:12-78 and
    src/cfg_methods/sub_block_generation.py:20-148. *)
From Verif Require Import Base UtilModel LiveModel CfgModel.
Open Scope string_scope. Open Scope list_scope.

(** src/parser/cfg_function.py: arguments and blocks; src/parser/cfg_object.py:
    main blocks and functions.  Subobjects are independent: each has its own tags. *)
Record cfun := { fn_args : list string; fn_blocks : clist }.
Record cobject := { ob_main : clist; ob_functions : list (string * cfun) }.
Definition tag_dict := list (string * nat).

(** The constructor of CFGInstruction reverses the arguments
    (src/parser/cfg_instruction.py:125-131): these are the stored ones. *)
Definition push_tag (t : nat) : linstr := {| li_op := "PUSH [tag]"; li_ins := []; li_outs := [str_nat t]; li_lits := None |}.
Definition jump_instr (t : nat) : linstr := {| li_op := "JUMP"; li_ins := [str_nat t]; li_outs := []; li_lits := None |}.
Definition jumpi_instr (t : nat) (c : string) : linstr := {| li_op := "JUMPI"; li_ins := [str_nat t; c]; li_outs := []; li_lits := None |}.

(** src/parser/cfg_block.py:261-271 and 273-289 *)
Definition insert_jump_instruction (t : nat) (b : cblock) : cblock :=
  set_split (Some (jump_instr t)) (set_instrs (cb_instrs b ++ [push_tag t; jump_instr t]) b).
Definition insert_jumpi_instruction (t : nat) (b : cblock) : result cblock :=
  match cb_cond b with
  | None => Raise AssertionError
  | Some c => Ok (set_split (Some (jumpi_instr t c)) (set_instrs (cb_instrs b ++ [push_tag t; jumpi_instr t c]) b))
  end.
(** jump_insertion.py:59-66.  The instruction object is also the split
    instruction of the block. *)
Definition insert_return_value (ret : option string) (b : cblock) : result cblock :=
  match rev (cb_instrs b) with
  | [] => Raise OtherError
  | i :: pre =>
      do _ <- py_assert (String.eqb (li_op i) "functionReturn");
      match ret with
      | None => Raise AssertionError
      | Some r =>
          let i' := {| li_op := li_op i; li_ins := r :: li_ins i; li_outs := li_outs i; li_lits := li_lits i |} in
          Ok (set_split (option_map (fun _ => i') (cb_split b)) (set_instrs (rev pre ++ [i']) b))
      end
  end.

(** jump_insertion.py:50-66: a block *)
Definition insert_jumps_block (ret : option string) (b : cblock) (tags : tag_dict) : result (cblock * tag_dict) :=
  if String.eqb (cb_type b) "unconditional" then
    do j <- of_option (cb_jump_to b);
    let (t, tags') := tag_from_tag_dict j tags in
    Ok (insert_jump_instruction t b, tags')
  else if String.eqb (cb_type b) "conditional" then
    do j <- of_option (cb_jump_to b);
    let (t, tags') := tag_from_tag_dict j tags in
    do b' <- insert_jumpi_instruction t b;
    Ok (b', tags')
  else if String.eqb (cb_type b) "FunctionReturn" then
    do b' <- insert_return_value ret b; Ok (b', tags)
  else Ok (b, tags).
Definition insert_jumps_block_list (ret : option string) (g : clist) (tags : tag_dict) : result (clist * tag_dict) :=
  for_each (fun st x =>
      do b <- get_block x (fst st);
      do r <- insert_jumps_block ret b (snd st);
      Ok (put_block x (fst r) (fst st), snd r)) (map fst (cl_blocks g)) (g, tags).

(** jump_insertion.py:24-37: a function *)
Definition insert_jumps_function (name : string) (f : cfun) (tags : tag_dict) : result (cfun * tag_dict) :=
  do s <- of_option (cl_start (fn_blocks f));
  let tags1 := snd (tag_from_tag_dict s tags) in
  let ret := match cl_return (fn_blocks f) with [] => None | _ => Some ("out_" ++ name)%string end in
  let args := match ret with None => fn_args f | Some r => r :: fn_args f end in
  do r <- insert_jumps_block_list ret (fn_blocks f) tags1;
  Ok ({| fn_args := args; fn_blocks := fst r |}, snd r).
(** jump_insertion.py:12-46: an object *)
Definition insert_jumps_functions (fs : list (string * cfun)) (tags : tag_dict) : result (list (string * cfun) * tag_dict) :=
  for_each (fun st nf => do r <- insert_jumps_function (fst nf) (snd nf) (snd st); Ok (fst st ++ [(fst nf, fst r)], snd r)) fs ([], tags).
Definition insert_jumps_object (ob : cobject) : result (cobject * tag_dict) :=
  do m <- insert_jumps_block_list None (ob_main ob) [];
  do fs <- insert_jumps_functions (ob_functions ob) (snd m);
  Ok ({| ob_main := fst m; ob_functions := fst fs |}, snd fs).

(** sub_block_generation.py:92-96 and 116-119: position after the phi functions *)
Fixpoint phi_count (l : list linstr) : nat :=
  match l with i :: l' => if String.eqb (li_op i) "PhiFunction" then S (phi_count l') else 0 | [] => 0 end.
Definition insert_at {A} (n : nat) (x : A) (l : list A) : list A := firstn n l ++ x :: skipn n l.

(** [tag_dict.pop(old)] and [tag_dict[new] = ...], sub_block_generation.py:79-81 *)
Definition move_tag (old new : string) (tags : tag_dict) : tag_dict :=
  match lookup old tags with Some t => dict_set new t (del old tags) | None => tags end.

(** The last instruction is replaced (the object is modified). *)
Definition replace_last (i : linstr) (l : list linstr) : list linstr := removelast l ++ [i].

(** sub_block_generation.py:83-104: the first half of a block split at a call *)
Definition tag_call (ft bt : nat) (instr : linstr) (b : cblock) : cblock :=
  let instr' := {| li_op := li_op instr; li_ins := str_nat ft :: li_ins instr ++ [str_nat bt]; li_outs := li_outs instr; li_lits := li_lits instr |} in
  let l := replace_last instr' (cb_instrs b) in
  let n := phi_count l in
  set_split (Some instr') (set_instrs (insert_at n (push_tag ft) (insert_at n (push_tag bt) l)) b).

(** sub_block_generation.py:57-107.  [rest] are the instructions of the current
    block from position [idx] on.  [constants.split_block] is empty, so only
    calls split. *)
Fixpoint split_at_calls (f2t : tag_dict) (rest : list linstr) (cur : string) (idx : nat) (g : clist) (tags : tag_dict)
  : result (string * clist * tag_dict) :=
  match rest with
  | instr :: (_ :: _) as rest' =>
      match lookup (li_op instr) f2t with
      | Some ft =>
          do g1 <- split_block cur idx g;
          let tags1 := move_tag cur (first_id cur) tags in
          let (bt, tags2) := tag_from_tag_dict (second_id cur) tags1 in
          do b <- get_block (first_id cur) g1;
          split_at_calls f2t rest' (second_id cur) 0 (put_block (first_id cur) (tag_call ft bt instr b) g1) tags2
      | None => split_at_calls f2t rest' cur (S idx) g tags
      end
  | _ => Ok (cur, g, tags)
  end.

Definition terminal_ops : list string := ["functionReturn"; "return"; "revert"; "stop"; "selfdestruct"].
(** sub_block_generation.py:109-145: the last instruction of the last part *)
Definition finish_block (f2t : tag_dict) (b : cblock) (tags : tag_dict) : result (cblock * tag_dict) :=
  match rev (cb_instrs b) with
  | [] => Ok (b, tags)
  | last :: _ =>
      match lookup (li_op last) f2t with
      | Some ft =>
          let n := phi_count (cb_instrs b) in
          let l := insert_at n (push_tag ft) (cb_instrs b) in
          let call back := {| li_op := li_op last; li_ins := str_nat ft :: li_ins last ++ back; li_outs := li_outs last; li_lits := li_lits last |} in
          match successors b with
          | [] => let i := call [] in Ok (set_split (Some i) (set_instrs (replace_last i l) b), tags)
          | [next] =>
              let (nt, tags') := tag_from_tag_dict next tags in
              let i := call [str_nat nt] in
              Ok (set_split (Some i) (set_instrs (replace_last i (insert_at n (push_tag nt) l)) b), tags')
          | _ => Raise AssertionError
          end
      | None =>
          if mem (li_op last) (["JUMP"; "JUMPI"] ++ terminal_ops) then Ok (set_split (Some last) b, tags) else Ok (b, tags)
      end
  end.
Definition split_step (f2t : tag_dict) (st : clist * tag_dict) (x : string) : result (clist * tag_dict) :=
  do b <- get_block x (fst st);
  do r <- split_at_calls f2t (cb_instrs b) x 0 (fst st) (snd st);
  let '(cur, g, tags) := r in
  do b' <- get_block cur g;
  do e <- finish_block f2t b' tags;
  Ok (put_block cur (fst e) g, snd e).
(** sub_block_generation.py:43-145 *)
Definition modify_block_list_split (f2t : tag_dict) (g : clist) (tags : tag_dict) : result (clist * tag_dict) :=
  for_each (split_step f2t) (map fst (cl_blocks g)) (g, tags).

(** sub_block_generation.py:20-40: an object *)
Definition function_tags (fs : list (string * cfun)) (tags : tag_dict) : result (tag_dict * tag_dict) :=
  for_each (fun st nf =>
      do s <- of_option (cl_start (fn_blocks (snd nf)));
      let (t, tags') := tag_from_tag_dict s (snd st) in
      Ok (dict_set (fst nf) t (fst st), tags')) fs ([], tags).
Definition split_functions (f2t : tag_dict) (fs : list (string * cfun)) (tags : tag_dict) : result (list (string * cfun) * tag_dict) :=
  for_each (fun st nf =>
      do r <- modify_block_list_split f2t (fn_blocks (snd nf)) (snd st);
      Ok (fst st ++ [(fst nf, {| fn_args := fn_args (snd nf); fn_blocks := fst r |})], snd r)) fs ([], tags).
Definition split_object (ob : cobject) (tags : tag_dict) : result (cobject * tag_dict) :=
  do ft <- function_tags (ob_functions ob) tags;
  do m <- modify_block_list_split (fst ft) (ob_main ob) (snd ft);
  do fs <- split_functions (fst ft) (ob_functions ob) (snd m);
  Ok ({| ob_main := fst m; ob_functions := fst fs |}, snd fs).
(** The two passes, src/cfg_methods/preprocessing_methods.py:41-48. *)
Definition insert_and_split (ob : cobject) : result (cobject * tag_dict) :=
  do r <- insert_jumps_object ob; split_object (fst r) (snd r).
