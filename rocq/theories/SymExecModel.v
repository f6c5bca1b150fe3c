(** Model of the block validator:
    src/analysis/symbolic_execution.py and src/analysis/greedy_validation.py. *)
From Verif Require Import Base Lexical.

(** A Python value found in the "value" field of an instruction. *)
Inductive pyval := PInt (z : Z) | PStr (s : string).

(** One entry of "user_instrs": the dictionary built in
    src/parser/cfg_instruction.py:11-122.  Simplification: the fields
    opcode/gas/push/size, never read by the code modelled here, are omitted. *)
Record instr := {
  i_id : string;
  i_disasm : string;
  i_inpt : list string;
  i_outpt : list string;
  i_comm : bool;
  i_storage : bool;
  i_value : option (list pyval)
}.

(** The part of the block specification (SFS) read by the validator:
    src/parser/cfg_block.py:578-606 and 645-650. *)
Record sfs := {
  s_src : list string;            (* "src_ws" *)
  s_tgt : list string;            (* "tgt_ws" *)
  s_instrs : list instr;          (* "user_instrs" *)
  s_deps : list (string * string) (* "dependencies" *)
}.

(** [cstack.pop(0)] *)
Definition pop0 (st : list string) : result (string * list string) :=
  match st with x :: st' => Ok (x, st') | [] => Raise OtherError end.

(** src/analysis/symbolic_execution.py:24-28 *)
Definition exec_swap (idx : Z) (st : list string) : result (list string) :=
  do _ <- py_assert ((0 <=? idx)%Z && (idx <? Z.of_nat (length st))%Z);
  let k := Z.to_nat idx in
  match st, nth_error st k with
  | x :: _, Some y => Ok (set_nth k x (set_nth 0 y st))
  | _, _ => Raise OtherError
  end.

(** src/analysis/symbolic_execution.py:30-34, [idx] already decremented *)
Definition exec_dup (idx : Z) (st : list string) : result (list string) :=
  do _ <- py_assert ((0 <=? idx)%Z && (idx <? Z.of_nat (length st))%Z);
  match nth_error st (Z.to_nat idx) with
  | Some y => Ok (y :: st)
  | None => Raise OtherError
  end.

(** src/analysis/symbolic_execution.py:58-62 *)
Fixpoint consume (inpt st : list string) : result (list string) :=
  match inpt with
  | [] => Ok st
  | x :: inpt' =>
      match st with
      | [] => Raise OtherError
      | y :: st' => do _ <- py_assert (String.eqb y x); consume inpt' st'
      end
  end.

(** src/analysis/symbolic_execution.py:46-66 *)
Definition exec_user (i : instr) (st : list string) : result (list string) :=
  do st' <-
    (if i_comm i then
       match i_inpt i with
       | [a; b] =>
           do p0 <- pop0 st; let '(s0, st1) := p0 in
           do p1 <- pop0 st1; let '(s1, st2) := p1 in
           do _ <- py_assert ((String.eqb s0 a && String.eqb s1 b)
                              || (String.eqb s0 b && String.eqb s1 a));
           Ok st2
       | _ => Raise AssertionError
       end
     else consume (i_inpt i) st);
  Ok (i_outpt i ++ st').

(** src/analysis/symbolic_execution.py:48: the first instruction with the id *)
Definition find_instr (id : string) (ui : list instr) : option instr :=
  find (fun i => String.eqb (i_id i) id) ui.

(** src/analysis/symbolic_execution.py:16-66 *)
Definition execute_instr_id (id : string) (st : list string) (ui : list instr)
  : result (list string) :=
  if String.eqb id "POP" then do p <- pop0 st; Ok (snd p)
  else if contains "SWAP" id then
    do idx <- of_option (py_int (sdrop 4 id)); exec_swap idx st
  else if contains "DUP" id then
    do n <- of_option (py_int (sdrop 3 id)); exec_dup (n - 1)%Z st
  else match vget_arg id with
  | Some x => Ok (x :: st)
  | None =>
  match vset_arg id with
  | Some x => do p <- pop0 st; let '(y, st') := p in
              do _ <- py_assert (String.eqb x y); Ok st'
  | None => do i <- of_option (find_instr id ui); exec_user i st
  end end.

(** src/analysis/greedy_validation.py:70-73 *)
Definition run_symbolic (ids : list string) (ui : list instr) (st : list string)
  : result (list string) :=
  for_each (fun s id => execute_instr_id id s ui) ids st.

(** src/analysis/greedy_validation.py:19-21: positions at which an id occurs *)
Fixpoint positions_from (n : nat) (x : string) (ids : list string) : list nat :=
  match ids with
  | [] => []
  | y :: ids' => (if String.eqb y x then [n] else []) ++ positions_from (S n) x ids'
  end.
Definition positions (x : string) (ids : list string) : list nat := positions_from 0 x ids.

(** [max(l)] and [min(l)]: ValueError on the empty list *)
Definition py_max (l : list nat) : result nat :=
  match l with [] => Raise OtherError | x :: l' => Ok (fold_left Nat.max l' x) end.
Definition py_min (l : list nat) : result nat :=
  match l with [] => Raise OtherError | x :: l' => Ok (fold_left Nat.min l' x) end.

(** src/analysis/greedy_validation.py:15-25 *)
Fixpoint check_deps (ids : list string) (deps : list (string * string)) : result bool :=
  match deps with
  | [] => Ok true
  | (a, b) :: deps' =>
      do m <- py_max (positions a ids);
      do n <- py_min (positions b ids);
      if m <? n then check_deps ids deps' else Ok false
  end.

(** src/analysis/greedy_validation.py:28-36 *)
Fixpoint ids_unique_from (acc : list string) (ui : list instr) : bool :=
  match ui with
  | [] => true
  | i :: ui' => if mem (i_id i) acc then false else ids_unique_from (i_id i :: acc) ui'
  end.
Definition ensure_ids_are_unique (ui : list instr) : bool := ids_unique_from [] ui.

(** src/analysis/greedy_validation.py:39-48 *)
Fixpoint add_vars (acc vars : list string) : option (list string) :=
  match vars with
  | [] => Some acc
  | v :: vars' => if mem v acc then None else add_vars (v :: acc) vars'
  end.
Fixpoint vars_unique_from (acc : list string) (ui : list instr) : bool :=
  match ui with
  | [] => true
  | i :: ui' => match add_vars acc (i_outpt i) with
                | None => false
                | Some acc' => vars_unique_from acc' ui'
                end
  end.
Definition ensure_stack_vars_are_unique (ui : list instr) : bool := vars_unique_from [] ui.

(** src/analysis/greedy_validation.py:88-92 *)
Definition check_counts (ids : list string) (ui : list instr) : result unit :=
  for_each (fun _ i =>
    if i_storage i && negb (contains "GAS" (i_disasm i))
    then py_assert (count (i_id i) ids =? 1) else Ok tt) ui tt.

(** src/analysis/greedy_validation.py:61-94 *)
Definition check_execution_from_ids (s : sfs) (ids : list string) (junk : bool) : result bool :=
  do st <- run_symbolic ids (s_instrs s) (s_src s);
  let cmp := if junk then firstn (length (s_tgt s)) st else st in
  do _ <- py_assert (list_eqb cmp (s_tgt s));
  do d <- check_deps ids (s_deps s);
  do _ <- py_assert d;
  do _ <- check_counts ids (s_instrs s);
  Ok true.
