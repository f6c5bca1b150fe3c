(** Renaming of variables: src/cfg_methods/variable_renaming.py. *)
From Verif Require Import Base UtilModel LiveModel CfgModel.
Open Scope string_scope. Open Scope list_scope.

(** A block list with its assignment dictionary, and a function
    (src/parser/cfg_function.py:5-12, the fields the renaming reads). *)
Record cunit := { u_args : list string; u_blocks : clist; u_assign : list (string * string) }.
Definition dict := list (string * string).

(** One turn of the loops of renaming_dict_from_instrs. *)
Definition next_name (st : dict * nat) (x : string) : dict * nat :=
  (dict_set x ("v" ++ str_nat (snd st))%string (fst st), S (snd st)).
(** The outputs of the instructions in the order of the two loops. *)
Definition block_outs (b : cblock) : list string := flat_map li_outs (cb_instrs b).
Definition list_outs (g : clist) : list string := flat_map (fun kb => block_outs (snd kb)) (cl_blocks g).
(** src/cfg_methods/variable_renaming.py:37-55 *)
Definition renaming_dict_from_instrs (g : clist) (input_args : list string) (free_index : nat) : dict * nat :=
  fold_left next_name (list_outs g) (fold_left next_name input_args ([], free_index)).

(** src/cfg_methods/variable_renaming.py:87-107, for one variable *)
Definition rename_var (d : dict) (x : string) : string :=
  let new_variable_name := lookup x d in
  if startswith "0x" x then x else match new_variable_name with Some y => y | None => x end.
Definition rename_var_list (d : dict) (l : list string) : list string := map (rename_var d) l.
(** src/cfg_methods/variable_renaming.py:82-84 *)
Definition rename_instr (d : dict) (i : linstr) : linstr :=
  {| li_op := li_op i; li_ins := rename_var_list d (li_ins i); li_outs := rename_var_list d (li_outs i); li_lits := li_lits i |}.
(** The body of the second loop of rename_block_list.  The split instruction of
    a block is one of its instructions (the same object), so it is renamed too. *)
Definition rename_block (d : dict) (b : cblock) : cblock :=
  {| cb_instrs := map (rename_instr d) (cb_instrs b); cb_type := cb_type b; cb_jump_to := cb_jump_to b; cb_falls_to := cb_falls_to b;
     cb_cond := option_map (rename_var d) (cb_cond b); cb_comes_from := cb_comes_from b; cb_entries := cb_entries b;
     cb_split := option_map (rename_instr d) (cb_split b) |}.
(** src/cfg_methods/variable_renaming.py:63-79 *)
Definition rename_blocks (d : dict) (g : clist) : clist :=
  {| cl_blocks := map (fun kb => (fst kb, rename_block d (snd kb))) (cl_blocks g);
     cl_start := cl_start g; cl_terminal := cl_terminal g; cl_return := cl_return g |}.
Definition rename_assign (d : dict) (a : dict) : dict :=
  fold_left (fun acc kv => dict_set (match lookup (fst kv) d with Some y => y | None => fst kv end) (snd kv) acc) a [].
(** src/cfg_methods/variable_renaming.py:58-60 *)
Definition rename_unit (d : dict) (u : cunit) : cunit :=
  {| u_args := rename_var_list d (u_args u); u_blocks := rename_blocks d (u_blocks u); u_assign := rename_assign d (u_assign u) |}.
(** src/cfg_methods/variable_renaming.py:30-34; for the main block list (lines
    18-19) the arguments are empty. *)
Definition new_variables (u : cunit) (free_index : nat) : cunit * nat :=
  let dn := renaming_dict_from_instrs (u_blocks u) (u_args u) free_index in
  (rename_unit (fst dn) u, snd dn).
(** src/cfg_methods/variable_renaming.py:13-23 for one object: the main block
    list first, then the functions; sub-objects are renamed on their own. *)
Fixpoint rename_units (us : list cunit) (free_index : nat) : list cunit :=
  match us with
  | [] => []
  | u :: us' => let un := new_variables u free_index in fst un :: rename_units us' (snd un)
  end.
Definition rename_object (us : list cunit) : list cunit := rename_units us 0.
