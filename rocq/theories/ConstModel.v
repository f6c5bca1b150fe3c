(** Variables for constants: src/cfg_methods/minimizing_constants_insertion.py. *)
From Verif Require Import Base UtilModel LiveModel CfgModel JumpModel.
Open Scope string_scope. Open Scope list_scope.

(** Lines 40-72: constants of each block (the sets of a defaultdict) and number
    of uses of each constant (a Counter). *)
Definition uses := list (string * nat).
Definition uses_of (c : string) (u : uses) : nat := match lookup c u with Some n => n | None => 0 end.
Definition constants := list (string * list string).
Definition constants_in (b : string) (cs : constants) : list string := match lookup b cs with Some s => s | None => [] end.
(** Lines 56-70: argument [k] of an instruction.  [block.entries[in_index]] fails
    for arguments of a phi function without an entry. *)
Definition note_argument (x : string) (b : cblock) (i : linstr) (st : constants * uses) (ka : nat * string) : result (constants * uses) :=
  let (k, a) := ka in let (cs, us) := st in
  if prefix "0x" a && negb (String.eqb (li_op i) "LiteralAssignment") then
    do y <- (if String.eqb (li_op i) "PhiFunction" then of_option (nth_error (cb_entries b) k) else Ok x);
    Ok (dict_set y (set_add a (constants_in y cs)) cs, dict_set a (S (uses_of a us)) us)
  else if String.eqb (li_op i) "LiteralAssignment" then Ok (cs, dict_set a (S (uses_of a us)) us)
  else Ok (cs, us).
Definition note_instruction (x : string) (b : cblock) (st : constants * uses) (i : linstr) : result (constants * uses) :=
  for_each (note_argument x b i) (combine (seq 0 (length (li_ins i))) (li_ins i)) st.
Definition constants_of_blocks (g : clist) : result (constants * uses) :=
  for_each (fun st xb => for_each (note_instruction (fst xb) (snd xb)) (cb_instrs (snd xb)) st) (cl_blocks g) ([], []).

(** Lines 86-93.  The formula of the comment is switched off. *)
Definition decide_if_propagated (c : string) (us : uses) : bool := false.

(** Lines 142-158; the last instruction of the block and its split instruction
    are one object. *)
Definition introduced := list (string * string).
Definition constant_name (names : introduced) (a : string) : string := match lookup a names with Some v => v | None => a end.
Definition with_ins (ins : list string) (i : linstr) : linstr := {| li_op := li_op i; li_ins := ins; li_outs := li_outs i; li_lits := li_lits i |}.
Definition use_names (names : introduced) (b : cblock) (i : linstr) : linstr :=
  if String.eqb (li_op i) "PhiFunction" then with_ins (map (fun ae => constant_name names (fst ae)) (combine (li_ins i) (cb_entries b))) i
  else if String.eqb (li_op i) "LiteralAssignment" then i
  else with_ins (map (constant_name names) (li_ins i)) i.
Definition insert_constants_block (names : introduced) (b : cblock) : cblock :=
  set_split (option_map (use_names names b) (cb_split b)) (set_instrs (map (use_names names b) (cb_instrs b)) b).

(** Lines 111-122: a push for each constant to introduce, before the first
    instruction that is not a phi function.  [decide] stands for
    [decide_if_propagated]; the order of a Python set is any order. *)
Definition push_constant (v c : string) : linstr := {| li_op := "push"; li_ins := []; li_outs := [v]; li_lits := Some [c] |}.
Definition insert_at {A} (k : nat) (a : A) (l : list A) : list A := firstn k l ++ a :: skipn k l.
Definition introduce (first : nat) (st : cblock * introduced * nat) (c : string) : cblock * introduced * nat :=
  let '(b, names, free) := st in
  let v := ("c" ++ str_nat free)%string in
  (set_instrs (insert_at first (push_constant v c) (cb_instrs b)) b, dict_set c v names, S free).
Definition phi_count (b : cblock) : nat := length (filter (fun i => String.eqb (li_op i) "PhiFunction") (cb_instrs b)).

(** Lines 96-139, in preorder of the dominator tree (computed by the networkx
    library, src/graphs/algorithms.py:56-63), which is given. *)
Inductive tree := Node (x : string) (children : list tree).
Section Preorder.
Variable decide : string -> uses -> bool.
Variables (cs : constants) (us : uses).
Fixpoint insert_constants_preorder (t : tree) (names : introduced) (st : clist * nat) : result (clist * nat) :=
  match t with
  | Node x children =>
      let (g, free) := st in
      do b <- get_block x g;
      let new := filter (fun c => negb (mem c (map fst names)) && decide c us) (constants_in x cs) in
      let '(b', names', free') := fold_left (introduce (phi_count b)) new (b, names, free) in
      let g' := put_block x (insert_constants_block names' b') g in
      (fix go (ts : list tree) (st : clist * nat) : result (clist * nat) :=
         match ts with [] => Ok st | t :: ts => do st <- insert_constants_preorder t names' st; go ts st end) children (g', free')
  end.
End Preorder.

(** Lines 19-37 and 75-83: the main code and the functions.  Simplifications:
    sub-objects share nothing with the object; [assigment_dict] is left out. *)
Definition insert_constants_list (decide : string -> uses -> bool) (t : tree) (g : clist) : result clist :=
  do r <- constants_of_blocks g;
  do st <- insert_constants_preorder decide (fst r) (snd r) t [] (g, 0);
  Ok (fst st).
Definition insert_constants_with (decide : string -> uses -> bool) (trees : option string -> tree) (ob : cobject) : result cobject :=
  do m <- insert_constants_list decide (trees None) (ob_main ob);
  do fs <- for_each (fun acc fk =>
      do g <- insert_constants_list decide (trees (Some (fst fk))) (fn_blocks (snd fk));
      Ok (acc ++ [(fst fk, {| fn_args := fn_args (snd fk); fn_blocks := g |})])) (ob_functions ob) [];
  Ok {| ob_main := m; ob_functions := fs |}.
Definition insert_constants (trees : option string -> tree) (ob : cobject) : result cobject := insert_constants_with decide_if_propagated trees ob.
