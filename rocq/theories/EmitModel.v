(** Model of the emission of the assembly code of a control-flow graph:
    src/solution_generation/reconstruct_bytecode.py:85-328. *)
From Verif Require Import Base Lexical SymExecModel AsmModel UtilModel LiveModel CfgModel.
Open Scope string_scope. Open Scope list_scope.

(** An instruction of the graph: operation, arguments and [get_literal_args()]
    (src/parser/cfg_instruction.py:125-140, 263-270). *)
Record cinstr := { ci_op : string; ci_ins : list string; ci_outs : list string; ci_literals : option (list string) }.
(** The parts of a block read by the emission (src/parser/cfg_block.py:69-114):
    [spec['user_instrs']], [greedy_ids], the jump information, the split
    instruction and the instructions.  [get_block_id()] is the key of the block
    in its list. *)
Record eblock := {
  eb_spec : list instr;
  eb_ids : list string;
  eb_type : string;
  eb_jump_to : option string;
  eb_falls_to : option string;
  eb_split : option cinstr;
  eb_instrs : list cinstr
}.

(** src/parser/cfg_instruction.py:429-431 *)
Definition cinstr_eqb (a b : cinstr) : bool :=
  list_eqb (ci_outs a) (ci_outs b) && list_eqb (ci_ins a) (ci_ins b) && String.eqb (ci_op a) (ci_op b).

(** src/solution_generation/reconstruct_bytecode.py:85-115.  [fns] are the keys
    of [function_name2entry]; the field jumpType is left out. *)
Definition asm_for_split_instruction (i : cinstr) (fns : list string) : result (list asm) :=
  if mem (ci_op i) fns then Ok [asm_from_op_info "JUMP" None]
  else if String.eqb (ci_op i) "functionReturn" then Ok [asm_from_op_info "JUMP" None]
  else if startswith "verbatim" (ci_op i) then Ok [asm_from_op_info "VERBATIM" (Some "0")]
  else if startswith "assignimmutable" (ci_op i) then
    match ci_literals i with
    | Some (v :: _) => Ok [asm_from_op_info (upper (ci_op i)) (Some (to_hex_default (PStr v)))]
    | _ => Raise OtherError
    end
  else Ok [asm_from_op_info (upper (ci_op i)) (match ci_literals i with Some (v :: _) => Some v | _ => None end)].

Definition get (blocks : list (string * eblock)) (id : option string) : result eblock :=
  match id with Some k => of_option (lookup k blocks) | None => Raise OtherError end.

(** src/solution_generation/reconstruct_bytecode.py:118-157: the loop bounded by [fuel] *)
Fixpoint generate_asm_split_blocks (fuel : nat) (fns : list string) (blocks : list (string * eblock)) (b : eblock) (acc : list asm)
  : result (eblock * list asm) :=
  do s <- of_option (eb_split b);
  do sub <- asm_from_ids (eb_spec b) (eb_ids b);
  do last <- asm_for_split_instruction s fns;
  if String.eqb (eb_type b) "sub_block" && negb (mem (ci_op s) fns) then
    match fuel with
    | O => Raise OutOfFuel
    | S f => do b' <- get blocks (eb_falls_to b); generate_asm_split_blocks f fns blocks b' (acc ++ sub ++ last)
    end
  else Ok (b, acc ++ sub ++ last).

(** src/solution_generation/reconstruct_bytecode.py:218-241: the last block of
    the sequence and the code *)
Definition block_asm (fns : list string) (blocks : list (string * eblock)) (b : eblock) : result (eblock * list asm) :=
  if String.eqb (eb_type b) "sub_block" then generate_asm_split_blocks (length blocks) fns blocks b []
  else
    do ids <- asm_from_ids (eb_spec b) (eb_ids b);
    do last <- match eb_split b with Some s => asm_for_split_instruction s fns | None => Ok [] end;
    do ids' <- match ids with
               | [] =>
                   if String.eqb (eb_type b) "terminal" then
                     match eb_instrs b with
                     | [ins] =>
                         do own <- asm_for_split_instruction ins fns;
                         Ok (if match eb_split b with Some s => cinstr_eqb ins s | None => false end then [] else own)
                     | _ => Raise AssertionError
                     end
                   else Ok []
               | _ => Ok ids
               end;
    Ok (b, ids' ++ last).

(** src/solution_generation/reconstruct_bytecode.py:243-246 *)
Definition tag_header (tags : list (string * Z)) (id : string) : list asm :=
  match lookup id tags with
  | Some t => [asm_from_op_info "tag" (Some (str_Z t)); asm_from_op_info "JUMPDEST" None]
  | None => []
  end.

(** The variables of the loop of traverse_cfg_block_list; the top of
    [pending_blocks] is the head of the list. *)
Record estate := { e_pending : list string; e_visited : list string; e_pos : list string; e_asm : list asm }.

(** src/solution_generation/reconstruct_bytecode.py:160-177 *)
Definition locate_fallsto_block (id fallsto : string) (code : list asm) (st : estate) : result estate :=
  match index_of fallsto (e_pos st) with
  | Some pos =>
      do _ <- py_assert (mem fallsto (e_visited st));
      Ok {| e_pending := e_pending st; e_visited := e_visited st;
            e_pos := firstn pos (e_pos st) ++ repeat id (length code) ++ skipn pos (e_pos st);
            e_asm := firstn pos (e_asm st) ++ code ++ skipn pos (e_asm st) |}
  | None =>
      Ok {| e_pending := fallsto :: e_pending st; e_visited := e_visited st;
            e_pos := e_pos st ++ repeat id (length code); e_asm := e_asm st ++ code |}
  end.

Definition append_code (id : string) (code : list asm) (st : estate) : estate :=
  {| e_pending := e_pending st; e_visited := e_visited st;
     e_pos := e_pos st ++ repeat id (length code); e_asm := e_asm st ++ code |}.
Definition push_unvisited (id : string) (st : estate) : estate :=
  if mem id (e_visited st) then st
  else {| e_pending := id :: e_pending st; e_visited := e_visited st; e_pos := e_pos st; e_asm := e_asm st |}.

(** src/solution_generation/reconstruct_bytecode.py:209-295: one iteration on the
    block [id], already popped.  The second [visited.append(block_id)] adds no
    member and is left out; so is the drawing of the graph, 297-312. *)
Definition visit (fns : list string) (tags : list (string * Z)) (blocks : list (string * eblock)) (id : string) (st0 : estate) : result estate :=
  let st := {| e_pending := e_pending st0; e_visited := e_visited st0 ++ [id]; e_pos := e_pos st0; e_asm := e_asm st0 |} in
  do b <- get blocks (Some id);
  do ba <- block_asm fns blocks b;
  let last := fst ba in
  let code := tag_header tags id ++ snd ba in
  if String.eqb (eb_type last) "conditional" then
    match eb_jump_to last, eb_falls_to last with
    | Some j, Some f =>
        if mem f (map fst blocks) && mem j (map fst blocks)
        then locate_fallsto_block id f code (push_unvisited j st)
        else Raise OtherError
    | _, _ => Raise OtherError
    end
  else if String.eqb (eb_type last) "unconditional" then
    match eb_jump_to last with
    | Some j => if mem j (map fst blocks) then Ok (push_unvisited j (append_code id code st)) else Raise OtherError
    | None => Raise OtherError
    end
  else if String.eqb (eb_type last) "falls_to" || String.eqb (eb_type last) "sub_block" then
    match eb_falls_to last with
    | Some f => if mem f (map fst blocks) then locate_fallsto_block id f code st else Raise OtherError
    | None => Raise OtherError
    end
  else if String.eqb (eb_type last) "terminal" || String.eqb (eb_type last) "FunctionReturn" then Ok (append_code id code st)
  else if String.eqb (eb_type last) "mainExit" then Ok (append_code id (code ++ [asm_from_op_info "STOP" None]) st)
  else Raise OtherError.

(** src/solution_generation/reconstruct_bytecode.py:208-314 *)
Fixpoint traverse_loop (fuel : nat) (fns : list string) (tags : list (string * Z)) (blocks : list (string * eblock)) (st : estate) : result (list asm) :=
  match e_pending st with
  | [] => Ok (e_asm st)
  | id :: rest =>
      match fuel with
      | O => Raise OutOfFuel
      | S f =>
          do st' <- visit fns tags blocks id {| e_pending := rest; e_visited := e_visited st; e_pos := e_pos st; e_asm := e_asm st |};
          traverse_loop f fns tags blocks st'
      end
  end.

(** src/solution_generation/reconstruct_bytecode.py:187-314 *)
Definition traverse_cfg_block_list (fuel : nat) (fns : list string) (tags : list (string * Z)) (blocks : list (string * eblock)) (start : string)
  : result (list asm) :=
  do _ <- get blocks (Some start);
  do _ <- py_assert (contains "Block0" start);
  traverse_loop fuel fns tags blocks {| e_pending := [start]; e_visited := []; e_pos := []; e_asm := [] |}.

(** src/solution_generation/reconstruct_bytecode.py:317-328: the code of an object
    is the code of its block list followed by that of its functions; a block list
    is given by its blocks and its start block *)
Fixpoint traverse_lists (fuel : nat) (fns : list string) (tags : list (string * Z)) (lists : list (list (string * eblock) * string))
  : result (list asm) :=
  match lists with
  | [] => Ok []
  | (blocks, start) :: rest =>
      do code <- traverse_cfg_block_list fuel fns tags blocks start;
      do others <- traverse_lists fuel fns tags rest;
      Ok (code ++ others)
  end.
Definition traverse_cfg (fuel : nat) (tags : list (string * Z)) (main : list (string * eblock) * string)
  (functions : list (string * (list (string * eblock) * string))) : result (list asm) :=
  traverse_lists fuel (map fst functions) tags (main :: map snd functions).
