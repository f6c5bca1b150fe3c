(** Parsing of the Yul CFG in JSON: src/parser/parser.py:14-232 with the
    constructors of src/parser/cfg_instruction.py:125-141, 284-383 and
    src/parser/cfg_block.py:291-335.

    A JSON object is the record of its fields; a field that may be missing is an
    option, or has the default of [get].  The liveness stored in the file, the
    assignments of literals, the exits and the return variables of functions are
    left out: they do not affect the graph.  Warnings are left out. *)
From Verif Require Import Base Lexical SymExecModel AsmModel DepsModel SpecModel UtilModel LiveModel CfgModel JumpModel.
Open Scope string_scope. Open Scope list_scope.

Record jinstr := { ji_in : option (list string); ji_op : option string; ji_out : option (list string); ji_lits : option (list string) }.
(** The exit of a block: type, targets, condition, values returned. *)
Record jexit := { jx_type : option string; jx_targets : list string; jx_cond : option string; jx_returns : option (list string) }.
Record jsblock := { js_id : option string; js_instrs : option (list jinstr); js_exit : option jexit; js_type : string; js_entries : list string }.
Record jfunction := { jf_args : list string; jf_entry : string; jf_blocks : list jsblock }.
Record jobject := { jo_blocks : option (list jsblock); jo_functions : list (string * jfunction) }.

(** parser.py:14-18 *)
Definition block_name (object_name block_id : string) : string := (object_name ++ "_" ++ block_id)%string.

(** parser.py:21-40 with cfg_instruction.py:126-141.  [split_block] is the dict
    [{}] (src/parser/constants.py:1), which has no method [add]: an operation
    whose name starts with "verbatim" raises.  Lines 28-29: the first elements of
    a literal assignment are read. *)
Definition parse_instruction (i : jinstr) : result linstr :=
  do ins <- of_option (ji_in i);
  do op <- of_option (ji_op i);
  do outs <- of_option (ji_out i);
  do _ <- (if String.eqb op "LiteralAssignment" then do _ <- of_option (hd_error outs); do _ <- of_option (hd_error ins); Ok tt else Ok tt);
  if startswith "verbatim" op then Raise OtherError
  else Ok {| li_op := op; li_ins := if String.eqb op "PhiFunction" then ins else rev ins;
             li_outs := if contains "_" op then rev (rev outs) else rev outs; li_lits := ji_lits i |}.

(** parser.py:79-117.  In a block whose own type is "FunctionReturn" each
    instruction becomes an empty list, and [check_validity_arguments] raises. *)
Definition parse_block (object_name : string) (b : jsblock) : result (string * cblock * list string) :=
  do exit <- of_option (js_exit b);
  let targets := map (block_name object_name) (jx_targets exit) in
  do id <- of_option (js_id b);
  do instrs <- of_option (js_instrs b);
  do parsed <- map_result (fun i => if String.eqb (js_type b) "FunctionReturn" then Raise OtherError else parse_instruction i) instrs;
  do type <- of_option (jx_type exit);
  do returns <- (if String.eqb type "FunctionReturn" then of_option (jx_returns exit) else Ok []);
  do blk <- set_jump_info {| j_id := block_name object_name id; j_type := type; j_targets := targets; j_cond := jx_cond exit;
                             j_returns := returns; j_entries := map (block_name object_name) (js_entries b); j_instrs := parsed |} (js_type b);
  Ok (block_name object_name id, blk, targets).

(** [hex(int(o, 16))], cfg_instruction.py:291 *)
Definition py_hex (z : Z) : string := if (z <? 0)%Z then ("-0x" ++ hex_drop2 (- z))%string else ("0x" ++ hex_drop2 z)%string.
Definition relabel (op : string) (lits : option (list string)) (i : linstr) : linstr :=
  {| li_op := op; li_ins := li_ins i; li_outs := li_outs i; li_lits := lits |}.
(** cfg_instruction.py:278-383 ([list(None)] and [None[0]] raise) *)
Definition translate_opcode (keys : list (string * nat)) (object_id : string) (st : idx_state) (i : linstr) : result (linstr * idx_state) :=
  if String.eqb (li_op i) "linkersymbol" then do l <- of_option (li_lits i); Ok (relabel "pushlib" (Some l) i, st)
  else if String.eqb (li_op i) "memoryguard" then
    do l <- of_option (li_lits i);
    do l' <- map_result (fun o => do z <- of_option (py_int16 o); Ok (py_hex z)) l;
    Ok (relabel "push" (Some l') i, st)
  else if String.eqb (li_op i) "datasize" then
    do l <- of_option (li_lits i); do x <- of_option (hd_error l);
    let '((op, text), st') := translate_datasize keys object_id st x in Ok (relabel op (Some [text]) i, st')
  else if String.eqb (li_op i) "dataoffset" then
    do l <- of_option (li_lits i); do x <- of_option (hd_error l);
    let '((op, text), st') := translate_dataoffset keys st x in Ok (relabel op (Some [text]) i, st')
  else if String.eqb (li_op i) "datacopy" then Ok (relabel "codecopy" (li_lits i) i, st)
  else if String.eqb (li_op i) "setimmutable" then Ok (relabel "assignimmutable" (li_lits i) i, st)
  else if String.eqb (li_op i) "loadimmutable" then Ok (relabel "pushimmutable" (li_lits i) i, st)
  else Ok (i, st).
(** src/parser/cfg_block.py:392-396 *)
Fixpoint translate_instrs (keys : list (string * nat)) (object_id : string) (st : idx_state) (is : list linstr) : result (list linstr * idx_state) :=
  match is with
  | [] => Ok ([], st)
  | i :: is' =>
      do r <- translate_opcode keys object_id st i;
      do rs <- translate_instrs keys object_id (snd r) is';
      Ok (fst r :: fst rs, snd rs)
  end.

(** src/parser/cfg_block_list.py:235-255: from the block "Block0"; the end of the
    Python list is the head here.  Each block visited adds at most two entries to
    the stack ([dfs_fuel] is enough: [dfs_ends]). *)
Fixpoint dfs_loop (fuel : nat) (g : clist) (visited stack : list string) : result (list string) :=
  match stack with
  | [] => Ok (rev visited)
  | x :: stack' =>
      match fuel with
      | O => Raise OutOfFuel
      | S fuel' =>
          if mem x visited then dfs_loop fuel' g visited stack'
          else do b <- get_block x g; dfs_loop fuel' g (x :: visited) (successors b ++ stack')
      end
  end.
Definition dfs_fuel (g : clist) : nat := 3 * length (cl_blocks g) + 1.
Definition dfs (name : string) (g : clist) : result (list string) := dfs_loop (dfs_fuel g) g [] [block_name name "Block0"].
(** src/parser/cfg_block_list.py:258-271 *)
Definition translate_opcodes (keys : list (string * nat)) (name object_id : string) (g : clist) : result clist :=
  do order <- dfs name g;
  do r <- for_each (fun gs x =>
      do b <- get_block x (fst gs);
      do t <- translate_instrs keys object_id (snd gs) (cb_instrs b);
      Ok (put_block x (set_instrs (fst t) b) (fst gs), snd t)) (rev order) (g, (0, []));
  Ok (fst r).

(** parser.py:131-161 *)
Definition parse_step (name : string) (st : clist * list (string * list string)) (b : jsblock) : result (clist * list (string * list string)) :=
  do p <- parse_block name b;
  let '(id, blk, targets) := p in
  do g <- add_block id blk false (fst st);
  Ok (g, fold_left (fun d t => annotate d t id) targets (snd st)).
Definition parser_block_list (builtin : bool) (keys : list (string * nat)) (name object_id : string) (blocks : list jsblock) : result clist :=
  do st <- for_each (parse_step name) blocks (empty_list, []);
  do g <- (if builtin then Ok (fst st) else translate_opcodes keys name object_id (fst st));
  update_comes_from (snd st) g.

(** parser.py:164-175.  The field "entry" is stored and not used. *)
Definition parse_function (builtin : bool) (keys : list (string * nat)) (object_id name : string) (f : jfunction) : result cfun :=
  do g <- parser_block_list builtin keys name object_id (jf_blocks f);
  Ok {| fn_args := rev (jf_args f); fn_blocks := g |}.

(** src/parser/cfg_object.py:59-67 with src/parser/cfg_block.py:327-335;
    [split_block] is empty. *)
Definition process_function_calls (functions : list string) (b : cblock) : cblock :=
  match rev (cb_instrs b) with
  | i :: _ => if mem (li_op i) functions || mem (li_op i) ["JUMP"; "JUMPI"] then set_split (Some i) b else b
  | [] => b
  end.
Definition identify_list (functions : list string) (g : clist) : clist :=
  {| cl_blocks := map (fun xb => (fst xb, process_function_calls functions (snd xb))) (cl_blocks g);
     cl_start := cl_start g; cl_terminal := cl_terminal g; cl_return := cl_return g |}.
Definition identify_function_calls (ob : cobject) : cobject :=
  let fs := map fst (ob_functions ob) in
  {| ob_main := identify_list fs (ob_main ob);
     ob_functions := map (fun fk => (fst fk, {| fn_args := fn_args (snd fk); fn_blocks := identify_list fs (fn_blocks (snd fk)) |})) (ob_functions ob) |}.

(** parser.py:178-187 and 200-228: one object, [keys] being the indices of its
    sub-objects. *)
Definition parse_object (builtin : bool) (keys : list (string * nat)) (name : string) (o : jobject) : result cobject :=
  do blocks <- of_option (jo_blocks o);
  do main <- parser_block_list builtin keys name name blocks;
  do fs <- for_each (fun fs f => do k <- parse_function builtin keys name (fst f) (snd f); Ok (dict_set (fst f) k fs)) (jo_functions o) [];
  Ok (identify_function_calls {| ob_main := main; ob_functions := fs |}).

(** A file: its objects (the keys other than "type" and "subObjects"), each with
    its sub-objects if there are any. *)
Inductive jcfg := JCfg (objects : list (string * jobject * option jcfg)).
Inductive pcfg := PCfg (objects : list (string * cobject * option pcfg)).
(** src/parser/cfg.py:30-32: the names of the objects with their indices. *)
Definition object_keys (c : pcfg) : list (string * nat) :=
  match c with PCfg os => combine (map (fun o => fst (fst o)) os) (seq 0 (length os)) end.
(** parser.py:190-232.  The keys of a JSON object are distinct, so adding an
    object never replaces one. *)
Fixpoint parse_cfg (builtin : bool) (c : jcfg) : result pcfg :=
  match c with
  | JCfg objects =>
      do _ <- py_assert (negb (Nat.eqb (length objects) 0));
      do os <- (fix go (os : list (string * jobject * option jcfg)) : result (list (string * cobject * option pcfg)) :=
        match os with
        | [] => Ok []
        | (name, o, sub) :: os' =>
            do sub' <- match sub with None => Ok None | Some c' => do p <- parse_cfg builtin c'; Ok (Some p) end;
            do ob <- parse_object builtin (match sub' with Some p => object_keys p | None => [] end) name o;
            do rest <- go os';
            Ok ((name, ob, sub') :: rest)
        end) objects;
      Ok (PCfg os)
  end.
