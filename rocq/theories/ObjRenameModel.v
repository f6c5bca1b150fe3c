(** Renaming of the variables of an object: src/cfg_methods/variable_renaming.py:13-34. *)
From Verif Require Import Base UtilModel LiveModel CfgModel RenameModel JumpModel.
Open Scope string_scope. Open Scope list_scope.

(** The main blocks and the functions as the renaming sees them.  The assignment
    dictionaries (constants) are left out; see RenameModel.v for them. *)
Definition main_unit (ob : cobject) : cunit := {| u_args := []; u_blocks := ob_main ob; u_assign := [] |}.
Definition function_unit (k : cfun) : cunit := {| u_args := fn_args k; u_blocks := fn_blocks k; u_assign := [] |}.
(** lines 21-23 *)
Fixpoint rename_functions (fs : list (string * cfun)) (free_index : nat) : list (string * cfun) :=
  match fs with
  | [] => []
  | (f, k) :: fs' =>
      let un := new_variables (function_unit k) free_index in
      (f, {| fn_args := u_args (fst un); fn_blocks := u_blocks (fst un) |}) :: rename_functions fs' (snd un)
  end.
(** lines 13-23, one object *)
Definition rename_variables (ob : cobject) : cobject :=
  let m := new_variables (main_unit ob) 0 in
  {| ob_main := u_blocks (fst m); ob_functions := rename_functions (ob_functions ob) (snd m) |}.
