(** Combination and removal of blocks for a whole object. *)
From Verif Require Import Base UtilModel LiveModel CfgModel JumpModel.
Open Scope string_scope. Open Scope list_scope.

(** src/cfg_methods/sub_block_generation.py:171-177.  [split_ops] is
    constants.split_block (src/global_params/constants.py). *)
Definition combine_remove_block_list (split_ops function_names : list string) (g : clist) : result clist :=
  do g1 <- combine_blocks_block_list split_ops function_names g; remove_blocks_block_list g1.
(** sub_block_generation.py:153-163, one object.  The block lists are changed in
    place; here a new object is built. *)
Definition combine_remove_functions (split_ops function_names : list string) (fs : list (string * cfun)) : result (list (string * cfun)) :=
  for_each (fun acc nf =>
      do g <- combine_remove_block_list split_ops function_names (fn_blocks (snd nf));
      Ok (acc ++ [(fst nf, {| fn_args := fn_args (snd nf); fn_blocks := g |})])) fs [].
Definition combine_remove_object (split_ops : list string) (ob : cobject) : result cobject :=
  let function_names := map fst (ob_functions ob) in
  do m <- combine_remove_block_list split_ops function_names (ob_main ob);
  do fs <- combine_remove_functions split_ops function_names (ob_functions ob);
  Ok {| ob_main := m; ob_functions := fs |}.
