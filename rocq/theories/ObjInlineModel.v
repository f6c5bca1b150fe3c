(** Inlining of one call in an object: the body of the loop of
    src/cfg_methods/function_inlining.py:86-122. *)
From Verif Require Import Base UtilModel LiveModel CfgModel InlineModel JumpModel.
Open Scope string_scope. Open Scope list_scope.

(** src/parser/cfg_object.py (get_block_list): the blocks of the main code or of
    a function; the main code is [None] here. *)
Definition get_block_list (ob : cobject) (c : option string) : result clist :=
  match c with
  | None => Ok (ob_main ob)
  | Some f => do k <- of_option (lookup f (ob_functions ob)); Ok (fn_blocks k)
  end.
(** The block list is changed in place. *)
Definition put_block_list (ob : cobject) (c : option string) (g : clist) : cobject :=
  match c with
  | None => {| ob_main := g; ob_functions := ob_functions ob |}
  | Some f => {| ob_main := ob_main ob;
                 ob_functions := map (fun fk => if String.eqb (fst fk) f then (fst fk, {| fn_args := fn_args (snd fk); fn_blocks := g |}) else fk) (ob_functions ob) |}
  end.
(** [functions.pop(name)], line 122 *)
Definition pop_function (f : string) (ob : cobject) : cobject :=
  {| ob_main := ob_main ob; ob_functions := filter (fun fk => negb (String.eqb (fst fk) f)) (ob_functions ob) |}.
(** Lines 88-122 for a function with one call, at position [pos] (counted with
    the phi functions) of the block [id]. *)
Definition inline_call (ob : cobject) (c : option string) (id : string) (pos : nat) (f : string) : result cobject :=
  do k <- of_option (lookup f (ob_functions ob));
  do g <- get_block_list ob c;
  do g' <- inline_function pos id g {| f_name := f; f_args := fn_args k; f_blocks := fn_blocks k |};
  Ok (pop_function f (put_block_list ob c g')).
