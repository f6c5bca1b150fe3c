(** The passes from the parsed object to the object whose blocks are compiled:
    src/cfg_methods/preprocessing_methods.py:18-54. *)
From Verif Require Import Base UtilModel LiveModel CfgModel JumpModel ObjRenameModel CombineModel InlineDriverModel ConstModel.
Open Scope string_scope. Open Scope list_scope.

(** src/cfg_methods/preprocessing_methods.py:24 (renaming), 30 (inlining), 36
    (combination and removal of blocks), 41 and 48 (tags, jumps and separation
    of blocks) and 54 (variables for constants), for one object.
    Simplifications: every pass goes through the sub-objects (which share nothing
    with the object) before the next one; the graphs drawn between the passes are
    left out.  [order] is the order found at function_inlining.py:86, and [trees]
    gives the dominator trees found at src/graphs/algorithms.py:56-63, both by
    the networkx library. *)
Definition preprocess (split_ops order : list string) (trees : cobject -> option string -> tree) (ob : cobject) : result (cobject * list (string * nat)) :=
  do ob1 <- inline_functions order (rename_variables ob);
  do ob2 <- combine_remove_object split_ops ob1;
  do r <- insert_and_split ob2;
  do ob3 <- insert_constants (trees (fst r)) (fst r);
  Ok (ob3, snd r).
