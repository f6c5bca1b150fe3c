(** Inlining of a function: src/cfg_methods/cfg_block_actions/inline_function.py. *)
From Verif Require Import Base UtilModel LiveModel CfgModel RenameModel.
Open Scope string_scope. Open Scope list_scope.

Record cfun := { f_name : string; f_args : list string; f_blocks : clist }.

(** [{k: v for k, v in zip(ks, vs)}] and [d.update(zip(ks, vs))] *)
Definition update_zip (ks vs : list string) (d : dict) : dict := fold_left (fun d kv => dict_set (fst kv) (snd kv) d) (combine ks vs) d.

(** lines 181-189 *)
Definition function_input2call_input (f : cfun) (call : linstr) : result dict :=
  do _ <- py_assert (Nat.eqb (length (f_args f)) (length (li_ins call)));
  Ok (update_zip (f_args f) (rev (li_ins call)) []).
(** The assertion of lines 166-167 and 178-179 (no name is mapped to itself). *)
Definition all_changed (d : dict) : bool := forallb (fun kv => negb (String.eqb (fst kv) (snd kv))) d.
(** lines 156-167 and rename_function (src/cfg_methods/variable_renaming.py:58-60) *)
Definition rename_input_args (f : cfun) (call : linstr) : result cfun :=
  do relabel <- function_input2call_input f call;
  do _ <- py_assert (all_changed relabel);
  Ok {| f_name := f_name f; f_args := rename_var_list relabel (f_args f); f_blocks := rename_blocks relabel (f_blocks f) |}.

(** src/parser/cfg_block.py:246-250 *)
Definition set_type (t : string) (b : cblock) : cblock :=
  {| cb_instrs := cb_instrs b; cb_type := t; cb_jump_to := cb_jump_to b; cb_falls_to := cb_falls_to b; cb_cond := cb_cond b;
     cb_comes_from := cb_comes_from b; cb_entries := cb_entries b; cb_split := cb_split b |}.
(** lines 51-60 *)
Definition no_return (b : cblock) : cblock := if String.eqb (cb_type b) "FunctionReturn" then set_type "unconditional" b else b.
Definition include_blocks (f : cfun) (g : clist) : result clist :=
  for_each (fun g kb => add_block (fst kb) (no_return (snd kb)) false g) (cl_blocks (f_blocks f)) g.

(** [remove_instruction(-1)], src/parser/cfg_block.py:170-184 (an empty list
    raises ZeroDivisionError) *)
Definition pop_instr (id : string) (g : clist) : result (linstr * clist) :=
  do b <- get_block id g;
  match rev (cb_instrs b) with
  | [] => Raise OtherError
  | i :: r => Ok (i, put_block id (set_split None (set_instrs (rev r) b)) g)
  end.

(** lines 91-104 *)
Definition connect_exit (second : string) (st : clist * list (list string)) (exit_id : string) : result (clist * list (list string)) :=
  do g1 <- modify_successors exit_id None second (fst st);
  do sb <- get_block second g1;
  let g2 := if mem exit_id (cb_comes_from sb) then g1 else put_block second (add_comes_from exit_id sb) g1 in
  do eb <- get_block exit_id g2;
  match rev (cb_instrs eb) with
  | [] => Raise OtherError
  | last :: _ => do _ <- py_assert (String.eqb (li_op last) "functionReturn");
                 Ok (g2, snd st ++ [li_ins last])
  end.

(** lines 106-116: one phi function per result, inserted at the beginning. *)
Definition insert_phi (returned : list (list string)) (instrs : list linstr) (i_out : nat * string) : result (list linstr) :=
  do values <- map_result (fun rv => of_option (nth_error rv (fst i_out))) returned;
  Ok ({| li_op := "PhiFunction"; li_ins := values; li_outs := [snd i_out]; li_lits := None |} :: instrs).
Definition insert_phis (second : string) (call : linstr) (returned : list (list string)) (exits : list string) (g : clist) : result clist :=
  do sb <- get_block second g;
  do instrs <- for_each (insert_phi returned) (combine (seq 0 (length (li_outs call))) (li_outs call)) (cb_instrs sb);
  Ok (put_block second (set_entries exits (set_instrs instrs sb)) g).

(** lines 191-210 and 169-179; the blocks of the function are in the list. *)
Definition call_output2function_output (call : linstr) (exits : list string) (g : clist) : result dict :=
  for_each (fun d exit_id =>
      do eb <- get_block exit_id g;
      match rev (cb_instrs eb) with
      | [] => Raise OtherError
      | last :: _ =>
          do _ <- py_assert (String.eqb (li_op last) "functionReturn");
          do _ <- py_assert (Nat.eqb (length (li_ins last)) (length (li_outs call)));
          Ok (update_zip (li_outs call) (li_ins last) d)
      end) exits [].
Definition rename_output_args (call : linstr) (exits : list string) (g : clist) : result clist :=
  do relabel <- call_output2function_output call exits g;
  do _ <- py_assert (all_changed relabel);
  Ok (rename_blocks relabel g).

(** lines 124-130 *)
Definition remove_return (g : clist) (exit_id : string) : result clist :=
  do ig <- pop_instr exit_id g;
  do _ <- py_assert (String.eqb (li_op (fst ig)) "functionReturn");
  Ok (snd ig).

(** lines 36-138.  The assignment dictionary of the caller (renamed by
    rename_block_list) is left out. *)
Definition inline_function (pos : nat) (id : string) (g : clist) (f0 : cfun) : result clist :=
  do b <- get_block id g;
  do call <- of_option (nth_error (cb_instrs b) pos);
  do _ <- py_assert (startswith (li_op call) (f_name f0));
  do f <- rename_input_args f0 call;
  do g1 <- include_blocks f g;
  do start <- of_option (cl_start (f_blocks f));
  let exits := cl_return (f_blocks f) in
  do g2 <- split_block id pos g1;
  do cg <- pop_instr (first_id id) g2;
  do g3 <- modify_successors (first_id id) (Some (second_id id)) start (snd cg);
  do g4 <- modify_comes_from start None (first_id id) g3;
  do sb <- get_block (second_id id) g4;
  do st <- for_each (connect_exit (second_id id)) exits (put_block (second_id id) (set_comes_from [] sb) g4, []);
  do g5 <- match snd st with
           | [] => Ok (fst st)
           | [_] => rename_output_args call exits (fst st)
           | returned => insert_phis (second_id id) call returned exits (fst st)
           end;
  for_each remove_return exits g5.

(** src/parser/cfg_instruction.py:126-137, the constructor: the arguments of the
    JSON file are reversed, except those of phi functions; the results are
    reversed, except when the name of the operation contains an underscore. *)
Definition cfg_instruction (op : string) (in_args out_args : list string) : linstr :=
  {| li_op := op; li_ins := if String.eqb op "PhiFunction" then in_args else rev in_args;
     li_outs := if contains "_" op then rev (rev out_args) else rev out_args; li_lits := None |}.
(** src/parser/parser.py:164-175: the arguments of the function are reversed. *)
Definition parse_function (name : string) (arguments : list string) (blocks : clist) : cfun :=
  {| f_name := name; f_args := rev arguments; f_blocks := blocks |}.
