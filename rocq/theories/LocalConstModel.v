(** Variables for constants, introduced where they are used:
    src/cfg_methods/constants_insertion.py.  The pipeline has this pass switched
    off (src/cfg_methods/preprocessing_methods.py:53). *)
From Verif Require Import Base UtilModel LiveModel CfgModel JumpModel ConstModel.
Open Scope string_scope. Open Scope list_scope.

(** Line 15, [insertion_dict_T]: the variables for the constants of each block. *)
Definition plan := list (string * introduced).
Definition names_of (p : plan) (x : string) : introduced := match lookup x p with Some l => l | None => [] end.
(** Lines 56-65, argument [k] of an instruction of block [x]. *)
Definition plan_argument (x : string) (b : cblock) (i : linstr) (st : plan * nat) (ka : nat * string) : result (plan * nat) :=
  let '(p, free) := st in let (k, a) := ka in
  if prefix "0x" a && negb (String.eqb (li_op i) "LiteralAssignment") then
    do y <- (if String.eqb (li_op i) "PhiFunction" then of_option (nth_error (cb_entries b) k) else Ok x);
    match lookup a (names_of p y) with
    | Some _ => Ok st
    | None => Ok (dict_set y (dict_set a ("c" ++ str_nat free)%string (names_of p y)) p, S free)
    end
  else Ok st.
(** Lines 44-67 *)
Definition plan_instruction (x : string) (b : cblock) (st : plan * nat) (i : linstr) : result (plan * nat) :=
  for_each (plan_argument x b i) (combine (seq 0 (length (li_ins i))) (li_ins i)) st.
Definition plan_blocks (g : clist) (free : nat) : result (plan * nat) :=
  for_each (fun st xb => for_each (plan_instruction (fst xb) (snd xb)) (cb_instrs (snd xb)) st) (cl_blocks g) ([], free).

(** Lines 81-94: the arguments of an instruction of block [x]. *)
Definition planned (p : plan) (x : string) (b : cblock) (i : linstr) : linstr :=
  if String.eqb (li_op i) "PhiFunction" then with_ins (map (fun ae => constant_name (names_of p (snd ae)) (fst ae)) (combine (li_ins i) (cb_entries b))) i
  else if String.eqb (li_op i) "LiteralAssignment" then i
  else with_ins (map (constant_name (names_of p x)) (li_ins i)) i.
(** Lines 80, 90, 97: the place of the new instructions. *)
Fixpoint first_other (l : list linstr) : nat :=
  match l with
  | [] => 0
  | i :: l' => if String.eqb (li_op i) "PhiFunction" || String.eqb (li_op i) "LiteralAssignment" then S (first_other l') else 0
  end.
(** Lines 73-103, one block.  Each push is inserted at the same place, before the
    former ones. *)
Definition plan_block (p : plan) (x : string) (b : cblock) : cblock :=
  set_instrs (fold_left (fun l cv => insert_at (first_other (cb_instrs b)) (push_constant (snd cv) (fst cv)) l) (names_of p x) (map (planned p x b) (cb_instrs b))) b.
(** Lines 25-29 (a block list of an object; the next one goes on with the counter). *)
Definition local_constants (free : nat) (g : clist) : result (clist * nat) :=
  do r <- plan_blocks g free;
  Ok ({| cl_blocks := map (fun xb => (fst xb, plan_block (fst r) (fst xb) (snd xb))) (cl_blocks g);
         cl_start := cl_start g; cl_terminal := cl_terminal g; cl_return := cl_return g |}, snd r).
