(** Model of the order in which functions are considered for inlining:
    src/cfg_methods/function_inlining.py:226-251. *)
From Verif Require Import Base UtilModel LiveModel CfgModel InlineModel JumpModel InlineDriverModel.
Open Scope string_scope. Open Scope list_scope.

(** The keys of the dictionary [function2call_info]: the functions called, in the
    order of their first call (src/cfg_methods/function_inlining.py:53, 77). *)
Fixpoint called_names (seen : list string) (info : list (string * site)) : list string :=
  match info with
  | [] => []
  | (f, _) :: info' => if mem f seen then called_names seen info' else f :: called_names (f :: seen) info'
  end.
Definition caller (s : site) : list string := match snd s with Some p => [p] | None => [] end.
(** src/cfg_methods/function_inlining.py:232-234: the graph with an edge from a
    function to each function that calls it, as lists of successors.
    Simplification: line 232 looks for the name of the component in the
    dictionary; the main code, whose name is that of the object, is not found
    (an object whose name is that of a function is outside the model). *)
Definition function_deps (info : list (string * site)) : list (string * list string) :=
  let keys := called_names [] info in
  map (fun f => (f, filter (fun p => mem p keys) (flat_map caller (calls_of info f)))) keys.
(** src/cfg_methods/function_inlining.py:244-245: the members of the components,
    in the order of the components. *)
Definition original_sort (components : list (list string)) : list string := concat components.
