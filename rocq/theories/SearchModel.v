(** Model of the search of the synthesizer:
    src/greedy/greedy_previous_param.py:35-61, 313-329, 383-399 and 713-1383.
    [reach] is the global variable of the module.  The elements of the stacks
    are texts: the branches for integers ([isinstance(o, int)]) are left out,
    since the specifications only contain texts (src/parser/cfg_block.py:578-606). *)
From Verif Require Import Base Lexical SymExecModel AsmModel.
From Verif Require UtilModel.
From Verif Require Import PermutModel.
Open Scope string_scope. Open Scope list_scope. Open Scope Z_scope.

(** ** Names of operations *)
(** src/greedy/greedy_previous_param.py:16-27 *)
Definition write_operations : list string :=
  ["SSTORE"; "TSTORE"; "MSTORE8"; "MSTORE"; "MCOPY"; "CALLDATACOPY"; "CODECOPY"; "RETURNDATACOPY"; "CALL";
   "DELEGATECALL"; "STATICCALL"; "CALLCODE"; "EXTCODECOPY"; "ASSIGNIMMUTABLE"; "LOG0"; "LOG1"; "LOG2"; "LOG3"; "LOG4";
   "CREATE"; "CREATE2"].
Definition mwrite_operations_output : list string := ["CALL"; "DELEGATECALL"; "STATICCALL"; "CALLCODE"; "CREATE"; "CREATE2"].
Definition mwrite_operations_no_output : list string :=
  ["MSTORE8"; "MSTORE"; "MCOPY"; "CALLDATACOPY"; "CODECOPY"; "RETURNDATACOPY"; "EXTCODECOPY"; "ASSIGNIMMUTABLE";
   "LOG0"; "LOG1"; "LOG2"; "LOG3"; "LOG4"].

(** src/greedy/greedy_previous_param.py:32-36: the text before the first "_" *)
Fixpoint delete_extension (s : string) : string :=
  match s with
  | EmptyString => EmptyString
  | String c s' => if Ascii.eqb c "_"%char then EmptyString else String c (delete_extension s')
  end.
(** src/greedy/greedy_previous_param.py:39-63 *)
Definition is_write (name : string) : bool := mem (delete_extension name) write_operations.
Definition is_mwrite_no_output (name : string) : bool := mem (delete_extension name) mwrite_operations_no_output.
Definition is_mwrite_output (name : string) : bool := mem (delete_extension name) mwrite_operations_output.

(** ** The instructions *)
(** [self._var_instr_map] and [self._opid_instr_map],
    src/greedy/greedy_previous_param.py:534-540: dictionaries, where the last
    of the instructions with the same key remains. *)
Definition var_instr (tbl : list instr) (o : string) : option instr :=
  find (fun i => match i_outpt i with [x] => String.eqb x o | _ => false end) (rev tbl).
Definition opid_instr (tbl : list instr) (o : string) : option instr :=
  find (fun i => String.eqb (i_id i) o) (rev tbl).
Definition in_vars (tbl : list instr) (o : string) : bool := match var_instr tbl o with Some _ => true | None => false end.
(** [self._var_instr_map[o]['inpt_sk'].reverse()]: the dictionary of the
    instruction is changed in place *)
Definition reverse_inputs (o : string) (i : instr) : instr :=
  match i_outpt i with
  | [x] => if String.eqb x o
           then {| i_id := i_id i; i_disasm := i_disasm i; i_inpt := rev (i_inpt i); i_outpt := i_outpt i;
                   i_comm := i_comm i; i_storage := i_storage i; i_value := i_value i |}
           else i
  | _ => i
  end.

(** What is fixed before the search begins: the target stack
    ([self._final_stack]), the source stack ([self._initial_stack]), the pushes
    worth duplicating ([self._dup_pushes]), the size of the instructions (the
    field "size", by id), the order required between values
    ([self._func_dep_map]), and [max_to_swap]. *)
Record setup := {
  g_reach : nat;
  g_final : list string;
  g_initial : list string;
  g_dup_pushes : list string;
  g_size : string -> Z;
  g_func_deps : list (string * list string);
  g_max_swap : Z
}.
(** What the search changes: the instructions, the number of pending uses of
    the values ([needed_stack]), the number of elements on the top that belong
    to the term under construction ([self._dup_stack_ini]), and the values whose
    order matters ([self._dependences_to_do], [self._dependences_done]). *)
Record gstate := {
  g_tbl : list instr;
  g_need : list (string * Z);
  g_dup : Z;
  g_todo : list string;
  g_done : list string
}.
Definition with_need (n : list (string * Z)) (g : gstate) : gstate :=
  {| g_tbl := g_tbl g; g_need := n; g_dup := g_dup g; g_todo := g_todo g; g_done := g_done g |}.
Definition with_dup (d : Z) (g : gstate) : gstate :=
  {| g_tbl := g_tbl g; g_need := g_need g; g_dup := d; g_todo := g_todo g; g_done := g_done g |}.
Definition with_tbl (t : list instr) (g : gstate) : gstate :=
  {| g_tbl := t; g_need := g_need g; g_dup := g_dup g; g_todo := g_todo g; g_done := g_done g |}.
(** [if o in self._dependences_to_do: remove(o); self._dependences_done.add(o)] *)
Definition settle (o : string) (g : gstate) : gstate :=
  if mem o (g_todo g)
  then {| g_tbl := g_tbl g; g_need := g_need g; g_dup := g_dup g;
          g_todo := filter (fun y => negb (String.eqb y o)) (g_todo g); g_done := UtilModel.set_add o (g_done g) |}
  else g.
Definition bump (g : gstate) : gstate := with_dup (g_dup g + 1) g.

(** [needed_stack.pop(o, None)] *)
Definition drop_key (o : string) (n : list (string * Z)) : list (string * Z) := filter (fun kv => negb (String.eqb (fst kv) o)) n.
Definition need (g : gstate) (o : string) : option Z := UtilModel.lookup o (g_need g).
Definition needs (g : gstate) (o : string) : bool := match need g o with Some _ => true | None => false end.
(** [o in needed_stack and needed_stack[o] == k] *)
Definition needs_exactly (g : gstate) (o : string) (k : Z) : bool := match need g o with Some n => n =? k | None => false end.
(** [assert (1 <= needed_stack[o]); needed_stack[o] -= 1] *)
Definition use_one (o : string) (g : gstate) : result gstate :=
  match need g o with
  | Some n => do _ <- py_assert (1 <=? n); Ok (with_need (UtilModel.dict_set o (n - 1) (g_need g)) g)
  | None => Raise OtherError
  end.

(** An emitted operation: the opcode and the id, which the code keeps in two
    lists that grow together. *)
Notation op := (string * string)%type.
Definition same (s : string) : op := (s, s).

(** src/greedy/greedy_previous_param.py:1733-1734 *)
Definition small_zeroary (P : setup) (tbl : list instr) (o : string) : bool :=
  match var_instr tbl o with
  | Some i => match i_inpt i with [] => negb (mem o (g_dup_pushes P)) || (g_size P (i_id i) <=? 1) | _ => false end
  | None => false
  end.

(** ** How often a value is needed *)
(** src/greedy/greedy_previous_param.py:296-315.  The table of the values
    already computed ([mneeded]) only saves time and is left out.  A cyclic
    specification, which the code follows until the recursion limit, runs out of
    fuel. *)
Fixpoint needed_one (fuel : nat) (v od : string) (keys : list string) (tbl : list instr) : result Z :=
  let all inpts := match fuel with
    | O => Raise OutOfFuel
    | S f => for_each (fun n x => do k <- needed_one f v x keys tbl; Ok (n + k)) inpts 0
    end in
  if is_write od then do i <- of_option (opid_instr tbl od); all (i_inpt i)
  else if String.eqb v od then Ok 1
  else match var_instr tbl od with
       | None => Ok 0
       | Some i => if mem od keys then Ok 0 else all (i_inpt i)
       end.
Definition needed (v od : string) (g : gstate) : result Z :=
  needed_one (S (length (g_tbl g))) v od (map fst (g_need g)) (g_tbl g).

(** src/greedy/greedy_previous_param.py:331-347 *)
Fixpoint computed_fuel (fuel : nat) (v od : string) (tbl : list instr) : result bool :=
  let any := fix any inpts := match inpts with
    | [] => Ok false
    | x :: inpts' => match fuel with
                     | O => Raise OutOfFuel
                     | S f => do b <- computed_fuel f v x tbl; if b : bool then Ok true else any inpts'
                     end
    end in
  if is_write od then do i <- of_option (opid_instr tbl od); any (i_inpt i)
  else if String.eqb v od then Ok true
  else match var_instr tbl od with None => Ok false | Some i => any (i_inpt i) end.
Definition computed (v od : string) (tbl : list instr) : result bool := computed_fuel (S (length tbl)) v od tbl.

(** src/greedy/greedy_previous_param.py:1067-1075; the positions go from the
    deepest to the top *)
Fixpoint too_far_upto (n : nat) (o : string) (stack : list string) (g : gstate) : result Z :=
  match n with
  | O => Ok 0
  | S i =>
      match nth_error stack i with
      | None => Raise OtherError
      | Some x =>
          do hit <- (if mem x (firstn i stack) then Ok false else do k <- needed x o g; Ok (negb (k =? 0)));
          if hit : bool then Ok (Z.of_nat n) else too_far_upto i o stack g
      end
  end.
Definition needs_in_stack_too_far (o : string) (stack : list string) (g : gstate) : result Z :=
  too_far_upto (length stack) o stack g.

(** ** Cleaning the stack *)
(** src/greedy/greedy_previous_param.py:1083-1087: the position where the inner
    loop stops *)
Fixpoint clean_from (n i : nat) (P : setup) (stack : list string) (solved : list Z) (g : gstate) : nat :=
  match n with
  | O => i
  | S n' =>
      if (i <? length stack)%nat && (i <=? g_reach P)%nat && negb (zmem (len (g_final P) + Z.of_nat i - len stack) solved) then
        match nth_error stack i with
        | Some x => if needs_exactly g x 0 && (zcount x (g_final P) <? zcount x stack) then i
                    else clean_from n' (S i) P stack solved g
        | None => i
        end
      else i
  end.
(** src/greedy/greedy_previous_param.py:1082-1099 *)
Fixpoint clean_loop (n i : nat) (P : setup) (stack : list string) (solved : list Z) (ops : list op) (g : gstate)
  : result (list op * list string * gstate) :=
  match n with
  | O => Raise OutOfFuel
  | S n' =>
      if (i <? length stack)%nat && (Z.of_nat (g_reach P) - 6 <=? len stack) && (i <=? g_reach P)%nat then
        let j := clean_from (length stack) i P stack solved g in
        if (0 <? j)%nat && (j <? length stack)%nat && (j <=? g_reach P)%nat
           && negb (zmem (len (g_final P) + Z.of_nat j - len stack) solved) then
          do stack' <- swap_top stack (Z.of_nat j);
          match stack' with
          | opr :: stack'' =>
              clean_loop n' j P stack'' solved (ops ++ [same (swap_name (Z.of_nat j)); same "POP"]) (with_need (drop_key opr (g_need g)) g)
          | [] => Raise OtherError
          end
        else Ok (ops, stack, g)
      else Ok (ops, stack, g)
  end.
(** src/greedy/greedy_previous_param.py:1077-1099 *)
Definition clean_stack (P : setup) (o : string) (stack : list string) (solved : list Z) (g : gstate)
  : result (list op * list string * gstate) :=
  do far <- needs_in_stack_too_far o stack g;
  if far <=? Z.of_nat (g_reach P) - 2 then Ok ([], stack, g)
  else clean_loop (S (length stack)) 0 P stack solved [] g.

(** src/greedy/greedy_previous_param.py:760-771 *)
Definition must_reverse (P : setup) (o : string) (inpts stack : list string) (g : gstate) : result bool :=
  match var_instr (g_tbl g) o with
  | None => Ok true
  | Some i =>
      if negb (i_comm i) then Ok true
      else
        do a <- of_option (nth_error inpts 0);
        do far <- needs_in_stack_too_far a stack g;
        if Z.of_nat (g_reach P) <=? far then Ok false
        else if small_zeroary P (g_tbl g) a then Ok true
        else do b <- of_option (nth_error inpts 1);
             if small_zeroary P (g_tbl g) b then Ok false else Ok true
  end.

(** ** One value *)
Definition outcome := (list op * list string * gstate)%type.

(** src/greedy/greedy_previous_param.py:776-825: an instruction without inputs *)
Definition push_zeroary (o : string) (i : instr) (stack : list string) (g : gstate) : result outcome :=
  if contains "PUSH" (i_disasm i) && match i_value i with Some _ => true | None => false end then
    do name <- (if contains "tag" (i_disasm i) then do v <- value0 i; Ok (i_disasm i ++ " " ++ str_pyval v)%string
                else Ok (i_disasm i));
    Ok ([(name, i_id i)], o :: stack, bump g)
  else
    let g := settle o (bump g) in
    do g <- (if needs g o then use_one o g else Ok g);
    Ok ([(i_disasm i, i_id i)], o :: stack, g).

(** src/greedy/greedy_previous_param.py:864-868: the value goes to the top, one SWAP at a time *)
Fixpoint rotate (n i : nat) (stack : list string) (ops : list op) : result (list op * list string) :=
  match n with
  | O => Ok (ops, stack)
  | S n' =>
      do x <- of_option (nth_error stack i);
      do t <- of_option (nth_error stack 0);
      if String.eqb t x then rotate n' (S i) stack ops
      else do stack' <- swap_top stack (Z.of_nat i);
           rotate n' (S i) stack' (ops ++ [same (swap_name (Z.of_nat i))])
  end.
(** [for i in range(n): if i in solved] *)
Definition solved_below (n : Z) (solved : list Z) : bool := existsb (fun i => (0 <=? i) && (i <? n)) solved.

(** src/greedy/greedy_previous_param.py:879-884: the pending uses of the values in the term of [o] *)
Definition use_term (o : string) (g : gstate) : result gstate :=
  for_each (fun g' n =>
    match need g' n with
    | Some k => if 0 <? k then do nn <- needed n o g; do _ <- py_assert (nn <=? k);
                              Ok (with_need (UtilModel.dict_set n (k - nn) (g_need g')) g')
                else Ok g'
    | None => Raise OtherError
    end) (map fst (g_need g)) g.

(** src/greedy/greedy_previous_param.py:837-887: the value is in the stack, in
    reach.  [None]: it is neither used up nor moved (the code goes on with
    line 876). *)
Definition take_from_stack (P : setup) (o : string) (stack : list string) (solved : list Z) (idx : nat) (g : gstate)
  : result (option outcome) :=
  if needs_exactly g o 1 && (negb (mem o (g_initial P)) || (zcount o (g_final P) <? zcount o stack)) then
    do pos <- (if Z.of_nat idx <? g_dup g
               then do k <- of_option (index_of o (slice stack (g_dup g) (len stack))); Ok (Z.of_nat k + g_dup g)
               else Ok (Z.of_nat idx));
    let d := len (g_final P) - len stack in
    if negb (zmem d solved) && negb (zmem (d + pos) solved) then
      if g_dup g =? 0 then
        if pos =? 0 then Ok (Some ([], stack, bump g))                                              (* 847-849 *)
        else
          do x <- of_option (znth stack pos);
          do _ <- py_assert (String.eqb o x);
          do stack' <- swap_top stack pos;
          Ok (Some ([same (swap_name pos)], stack', bump (with_need (drop_key o (g_need g)) g)))    (* 850-856 *)
      else if solved_below (d + pos + 1) solved then Ok None
      else
        do _ <- py_assert (g_max_swap P <=? Z.of_nat (g_reach P));
        if pos <=? g_max_swap P then
          do r <- rotate (Z.to_nat pos) 1 stack [];
          do _ <- py_assert (negb (existsb (fun k => zmem (d + Z.of_nat k) solved) (seq 0 (Z.to_nat pos))));
          Ok (Some (fst r, snd r, bump (with_need (drop_key o (g_need g)) g)))                      (* 861-875 *)
        else Ok None
    else Ok None
  else Ok None.
Definition from_stack (P : setup) (o : string) (stack : list string) (solved : list Z) (idx : nat) (g : gstate)
  : result outcome :=
  do taken <- take_from_stack P o stack solved idx g;
  match taken with
  | Some r => Ok r
  | None =>
      do g <- (if needs g o then use_one o g else use_term o g);                                     (* 876-884 *)
      Ok ([same (dup_id (idx + 1))], o :: stack, bump g)                                            (* 885-887 *)
  end.

(** [for i in range(len(inpts)): assert (inpts[i] == stack[i])] *)
Fixpoint check_top (inpts stack : list string) : result unit :=
  match inpts with
  | [] => Ok tt
  | x :: inpts' => match stack with
                   | [] => Raise OtherError
                   | y :: stack' => do _ <- py_assert (String.eqb x y); check_top inpts' stack'
                   end
  end.

(** [if stack.count(x) > self._final_stack.count(x): needed_stack.pop(x, None)] *)
Definition forget_extra (P : setup) (x : string) (stack : list string) (g : gstate) : gstate :=
  if zcount x (g_final P) <? zcount x stack then with_need (drop_key x (g_need g)) g else g.

(** src/greedy/greedy_previous_param.py:932-947: both operands are on the top *)
Definition both_on_top (P : setup) (o : string) (i : instr) (stack : list string) (solved : list Z) (g : gstate) : bool :=
  match i_inpt i, stack with
  | [a; b], x :: y :: _ =>
      let d := len (g_final P) - len stack in
      (g_dup g =? 0) && negb (zmem d solved) && negb (zmem (d + 1) solved)
      && ((String.eqb a x && String.eqb b y)
          || (match var_instr (g_tbl g) o with Some j => i_comm j | None => false end && String.eqb a y && String.eqb b x))
      && needs_exactly g x 1 && needs_exactly g y 1
  | _, _ => false
  end.
(** src/greedy/greedy_previous_param.py:948-954: the first operand of a
    commutative operation is on the top *)
Definition first_on_top (P : setup) (o : string) (i : instr) (stack : list string) (solved : list Z) (g : gstate) : bool :=
  match i_inpt i, stack with
  | [a; b], x :: _ =>
      (g_dup g =? 0) && negb (zmem (len (g_final P) - len stack) solved)
      && match var_instr (g_tbl g) o with Some j => i_comm j | None => false end && String.eqb a x
      && needs_exactly g x 1
  | _, _ => false
  end.

(** src/greedy/greedy_previous_param.py:989-996, with the function for one value *)
Definition compute_all (one : string -> list string -> gstate -> result outcome)
  (os : list string) (stack : list string) (g : gstate) : result outcome :=
  for_each (fun acc o =>
    let '(ops, stack, g) := acc in
    do out <- one o stack g;
    let '(nops, stack', g') := out in
    Ok (ops ++ nops, stack', g')) os ([], stack, g).

(** src/greedy/greedy_previous_param.py:895-988: the value is computed.  The
    branch of lines 904-923 is for instructions whose field "value" is an
    integer; it is a list wherever it is present
    (src/parser/cfg_instruction.py:40-122), so that branch is never taken. *)
Definition compute_term (one : string -> list string -> gstate -> result outcome)
  (P : setup) (solved : list Z) (o : string) (stack : list string) (g : gstate) : result outcome :=
  do _ <- py_assert (negb (mem o (g_initial P)));
  do i <- of_option (if is_write o then opid_instr (g_tbl g) o else var_instr (g_tbl g) o);
  let inpts := i_inpt i in
  let outs := i_outpt i in
  let this := (i_disasm i, i_id i) in
  if both_on_top P o i stack solved g then
    match stack with
    | x :: y :: rest => Ok ([this], outs ++ rest, bump (forget_extra P y stack (forget_extra P x stack g)))
    | _ => Raise OtherError
    end
  else if first_on_top P o i stack solved g then
    match inpts, stack with
    | [a; b], x :: _ =>
        do out <- one b stack (bump (forget_extra P x stack g));
        let '(ops, stack', g') := out in
        Ok (ops ++ [this], outs ++ skipn (length inpts) stack', with_dup (g_dup g' - len inpts + len outs) g')
    | _, _ => Raise OtherError
    end
  else
    do reverse <- must_reverse P o inpts stack g;
    let inpts1 := if reverse : bool then rev inpts else inpts in
    do out <- compute_all one inpts1 stack g;
    let '(ops, stack', g') := out in
    let inpts2 := rev inpts1 in
    do _ <- check_top inpts2 stack';
    let stack'' := outs ++ skipn (length inpts2) stack' in
    do _ <- py_assert (negb (needs g' o && negb (mem o (tl stack''))));
    Ok (ops ++ [this], stack'', with_dup (g_dup g' - len inpts2 + len outs) g').

(** src/greedy/greedy_previous_param.py:773-988 *)
Fixpoint compute_one (fuel : nat) (P : setup) (solved : list Z) (o : string) (stack : list string) (g : gstate)
  : result outcome :=
  match fuel with
  | O => Raise OutOfFuel
  | S f =>
      match (if small_zeroary P (g_tbl g) o && negb (mem o (g_done g)) then var_instr (g_tbl g) o else None) with
      | Some i => push_zeroary o i stack g
      | None =>
          let near := mem o (firstn (g_reach P) stack) in
          do g <- (if needs g o && negb near && (g_dup g =? 0)
                   then do r <- clean_stack P o stack solved g; Ok (snd r) else Ok g);                 (* 827-829 *)
          if needs g o && negb near then                                                                (* 830-836 *)
            do g <- use_one o g;
            Ok ([same (vget_id o)], o :: stack, bump g)
          else
            match index_of o stack with
            | Some idx => if (idx <? g_reach P)%nat then from_stack P o stack solved idx g
                          else compute_term (compute_one f P solved) P solved o stack g
            | None => compute_term (compute_one f P solved) P solved o stack g
            end
      end
  end.
Definition compute_with_stack (fuel : nat) (P : setup) (solved : list Z) := compute_all (compute_one fuel P solved).

(** ** The values computed beforehand *)
(** src/greedy/greedy_previous_param.py:1101-1122 *)
Fixpoint pre_compute_list (fuel : nat) (P : setup) (o : string) (cstack : list string) (acc : list string * gstate)
  : result (list string * gstate) :=
  match fuel with
  | O => Raise OutOfFuel
  | S f =>
      if mem o cstack then Ok acc
      else
      do _ <- py_assert (negb (mem o (g_initial P)));
      if mem o (fst acc) then Ok acc
      else
      do i <- of_option (if is_write o then opid_instr (g_tbl (snd acc)) o else var_instr (g_tbl (snd acc)) o);
      do acc <- for_each (fun acc x => pre_compute_list f P x cstack acc) (i_inpt i) acc;
      do acc <- match UtilModel.lookup o (g_func_deps P) with
                | None => Ok acc
                | Some ops =>
                    for_each (fun acc x =>
                      if mem x (g_done (snd acc)) then Ok acc
                      else
                        let g := snd acc in
                        let g := if negb (mem x (fst acc)) && negb (needs g x) then with_need (UtilModel.dict_set x 1 (g_need g)) g else g in
                        pre_compute_list f P x cstack (fst acc, g)) ops acc
                end;
      let '(lord, g) := acc in
      if negb (mem o lord) && match need g o with Some n => 0 <? n | None => false end
      then Ok (lord ++ [o], g) else Ok (lord, g)
  end.

(** src/greedy/greedy_previous_param.py:1124-1153, one value *)
Definition compute_pre_one (fuel : nat) (P : setup) (solved : list Z) (acc : outcome) (o : string) : result outcome :=
  let '(ops, cstack, g) := acc in
  do cl <- clean_stack P o cstack solved g;
  let '(cops, cstack, g) := cl in
  do i <- of_option (var_instr (g_tbl g) o);
  do reverse <- must_reverse P o (i_inpt i) cstack g;
  let tbl1 := if reverse : bool then map (reverse_inputs o) (g_tbl g) else g_tbl g in
  let inpts1 := if reverse then rev (i_inpt i) else i_inpt i in
  do out <- compute_with_stack fuel P solved inpts1 cstack (with_dup 0 (with_tbl tbl1 g));
  let '(pops, cstack, g) := out in
  let g := with_tbl (map (reverse_inputs o) (g_tbl g)) g in
  let inpts2 := rev inpts1 in
  do _ <- check_top inpts2 cstack;
  Ok (ops ++ cops ++ pops ++ [(i_disasm i, i_id i)], i_outpt i ++ skipn (length inpts2) cstack, settle o g).
Definition compute_pre_list (fuel : nat) (P : setup) (solved : list Z) (lord cstack : list string) (g : gstate) : result outcome :=
  for_each (compute_pre_one fuel P solved) lord ([], cstack, g).

(** src/greedy/greedy_previous_param.py:1168-1182 and 1194-1207: the operation itself *)
Definition compute_last (fuel : nat) (P : setup) (solved : list Z) (o : string) (acc : outcome) : result outcome :=
  let '(ops, cstack, g) := acc in
  do cl <- clean_stack P o cstack solved g;
  let '(cops, cstack, g) := cl in
  do out <- compute_one fuel P solved o cstack (with_dup 0 g);
  let '(pops, cstack, g) := out in
  Ok (ops ++ cops ++ pops, cstack, settle o g).
(** src/greedy/greedy_previous_param.py:1155-1183 *)
Definition compute_memory_op (fuel : nat) (P : setup) (solved : list Z) (o : string) (cstack : list string) (g : gstate) : result outcome :=
  do pre <- pre_compute_list fuel P o cstack ([], g);
  let '(lord, g) := pre in
  do acc <- compute_pre_list fuel P solved lord cstack g;
  if negb (is_write o) then
    do l <- of_option (nth_error (rev lord) 0);
    do _ <- py_assert (String.eqb l o);
    Ok acc
  else compute_last fuel P solved o acc.
(** src/greedy/greedy_previous_param.py:1185-1208 *)
Definition compute_regular_op (fuel : nat) (P : setup) (solved : list Z) (o : string) (cstack : list string) (g : gstate) : result outcome :=
  do pre <- pre_compute_list fuel P o cstack ([], g);
  let '(lord, g) := pre in
  do acc <- compute_pre_list fuel P solved lord cstack g;
  if mem o lord then Ok acc else compute_last fuel P solved o acc.

(** ** What to do next *)
Inductive choice :=
| Place (posc : Z)     (* case 0: the top belongs at that position, counted from the end *)
| Build (pos : nat)    (* case 1: the value of that position of the target is computed *)
| Finish.              (* case 2: only a permutation is missing *)

(** src/greedy/greedy_previous_param.py:1000-1011 *)
Fixpoint choose_place (n : nat) (P : setup) (solved : list Z) (top : string) (cstack : list string) (posc : Z) : option Z :=
  match n with
  | O => None
  | S n' =>
      let pos := len (g_final P) + posc in
      if (0 <=? len cstack + posc) && (0 <=? pos) then
        if negb (zmem pos solved) && wants (g_final P) pos top && (len cstack + posc <=? Z.of_nat (g_reach P)) then Some posc
        else choose_place n' P solved top cstack (posc - 1)
      else None
  end.
(** [pos not in solved and cstack.count(F[pos]) < F.count(F[pos])] *)
Definition lacking (P : setup) (solved : list Z) (cstack : list string) (pos : nat) : result (option string) :=
  if zmem (Z.of_nat pos) solved then Ok None
  else do x <- of_option (nth_error (g_final P) pos);
       Ok (if zcount x cstack <? zcount x (g_final P) then Some x else None).
(** src/greedy/greedy_previous_param.py:1022-1031 *)
Fixpoint choose_better (n : nat) (P : setup) (solved : list Z) (cstack : list string) (g : gstate) (ns : Z) (pos : nat) : result nat :=
  match n with
  | O => Ok pos
  | S pos1 =>
      if 0 <=? len cstack + Z.of_nat pos1 - len (g_final P) then
        do l <- lacking P solved cstack pos1;
        match l with
        | Some x =>
            do ns1 <- needs_in_stack_too_far x cstack g;
            if (ns <=? ns1) && (Z.of_nat (g_reach P) - 1 <=? ns1) && (ns1 <=? Z.of_nat (g_reach P)) then Ok pos1
            else choose_better pos1 P solved cstack g ns pos
        | None => choose_better pos1 P solved cstack g ns pos
        end
      else Ok pos
  end.
(** src/greedy/greedy_previous_param.py:1016-1034 *)
Fixpoint choose_build (n : nat) (P : setup) (solved : list Z) (cstack : list string) (g : gstate) : result (option nat) :=
  match n with
  | O => Ok None
  | S pos =>
      do l <- lacking P solved cstack pos;
      match l with
      | Some x => do ns <- needs_in_stack_too_far x cstack g;
                  do p <- choose_better pos P solved cstack g ns pos; Ok (Some p)
      | None => choose_build pos P solved cstack g
      end
  end.
(** src/greedy/greedy_previous_param.py:998-1043 *)
Definition choose_element (P : setup) (solved : list Z) (cstack : list string) (g : gstate) : result choice :=
  let place := match cstack with
    | [] => None
    | top :: _ => if zmem (len (g_final P) - len cstack) solved then None
                  else choose_place (length cstack) P solved top cstack (-1)
    end in
  match place with
  | Some posc => Ok (Place posc)
  | None =>
      do b <- choose_build (length (g_final P)) P solved cstack g;
      match b with
      | Some pos => Ok (Build pos)
      | None => do _ <- py_assert (forallb (fun e => zcount e (g_final P) <=? zcount e cstack) (g_final P)); Ok Finish
      end
  end.

(** src/greedy/greedy_previous_param.py:1053-1062: the operations from the last
    to the second *)
Fixpoint too_long_at (i : nat) (x : string) (later : bool) (P : setup) (mem_ops : list string) (nostore : Z) (g : gstate) : result bool :=
  match mem_ops with
  | [] => Ok false
  | m :: mem_ops' =>
      let nostore' := if is_write m then nostore else nostore - 1 in
      do hit <- (if later then Ok false else do k <- needed x m g; Ok (negb (k =? 0)));
      if hit && (Z.of_nat (g_reach P) - 1 <=? Z.of_nat i + nostore') then Ok true
      else too_long_at i x later P mem_ops' nostore' g
  end.
(** src/greedy/greedy_previous_param.py:1050-1065: the positions [n - 1], [n - 2], ... *)
Fixpoint too_long_upto (n : nat) (P : setup) (stack mem_ops : list string) (nostore : Z) (g : gstate) : result bool :=
  match n with
  | O => Ok false
  | S i =>
      if Z.of_nat (g_reach P) - 1 <=? Z.of_nat i + nostore then
        match nth_error stack i with
        | None => Raise OtherError
        | Some x => do b <- too_long_at i x (mem x (firstn i stack)) P mem_ops nostore g;
                    if b : bool then Ok true else too_long_upto i P stack mem_ops nostore g
        end
      else Ok false
  end.
(** src/greedy/greedy_previous_param.py:1045-1065 *)
Definition stack_too_long (P : setup) (stack mem_ops : list string) (g : gstate) : result bool :=
  let nostore := Z.of_nat (length (filter (fun o => negb (is_write o)) mem_ops)) in
  if Z.of_nat (g_reach P) - 1 <=? nostore then Ok false
  else too_long_upto (length stack) P stack (rev (tl mem_ops)) nostore g.

(** ** The main loop *)
(** src/greedy/greedy_previous_param.py:1232-1239 and 1366-1374: elements on the
    top that are not needed any more *)
Fixpoint pop_unneeded (P : setup) (solved : list Z) (g : gstate) (cstack : list string) : list op * list string :=
  match cstack with
  | [] => ([], [])
  | top :: rest =>
      if match need g top with None => true | Some n => n =? 0 end
         && (zcount top (g_final P) <? zcount top cstack) && negb (zmem (len (g_final P) - len cstack) solved)
      then let r := pop_unneeded P solved g rest in (same "POP" :: fst r, snd r)
      else ([], cstack)
  end.

(** The variables of the loop. *)
Record lstate := {
  l_ops : list op;
  l_stack : list string;
  l_solved : list Z;
  l_instr : list string;
  l_nostore : list string;
  l_g : gstate
}.

(** src/greedy/greedy_previous_param.py:1268-1277: the last of the pending
    operations that computes something needed by [o] *)
Definition feeds (o : string) (tbl : list instr) (m : string) : result bool :=
  if is_mwrite_no_output m then Ok false
  else do o1 <- (if is_mwrite_output m
                 then do i <- of_option (opid_instr tbl m);
                      match i_outpt i with [v] => Ok v | _ => Raise AssertionError end
                 else Ok m);
       computed o1 o tbl.
Fixpoint last_with (test : string -> result bool) (n : nat) (l : list string) : result (option nat) :=
  match n with
  | O => Ok None
  | S i => do x <- of_option (nth_error l i);
           do b <- test x;
           if b : bool then Ok (Some i) else last_with test i l
  end.
(** A sequence of memory operations. *)
Definition run_memory (fuel : nat) (P : setup) (solved : list Z) (ms cstack : list string) (g : gstate) : result outcome :=
  for_each (fun acc m =>
    let '(ops, cstack, g) := acc in
    do out <- compute_memory_op fuel P solved m cstack (with_dup 0 g);
    let '(nops, cstack, g) := out in
    Ok (ops ++ nops, cstack, g)) ms ([], cstack, g).

(** src/greedy/greedy_previous_param.py:1249-1262 *)
Definition do_place (P : setup) (posc : Z) (l : lstate) : result lstate :=
  do top <- of_option (nth_error (l_stack l) 0);
  do x <- of_option (znth (l_stack l) posc);
  if String.eqb top x then
    do _ <- py_assert (negb (zmem (len (g_final P) + posc) (l_solved l)));
    Ok {| l_ops := l_ops l; l_stack := l_stack l; l_solved := l_solved l ++ [len (g_final P) + posc];
          l_instr := l_instr l; l_nostore := l_nostore l; l_g := l_g l |}
  else
    let pos := len (l_stack l) + posc in
    do _ <- py_assert ((0 <? pos) && (pos <=? Z.of_nat (g_reach P)));
    do stack' <- swap_top (l_stack l) pos;
    do _ <- py_assert (len (l_stack l) =? len stack');
    Ok {| l_ops := l_ops l ++ [same (swap_name pos)]; l_stack := stack'; l_solved := l_solved l;
          l_instr := l_instr l; l_nostore := l_nostore l; l_g := l_g l |}.

(** src/greedy/greedy_previous_param.py:1264-1306: the operations that come
    before the value [o]; also the remaining ones, and whether the value has to
    be computed before a store *)
Definition before_value (fuel : nat) (P : setup) (o : string) (l : lstate) : result (outcome * list string * list string * bool) :=
  let tbl := g_tbl (l_g l) in
  let instr := l_instr l in
  do i <- last_with (feeds o tbl) (length instr) instr;
  do j <- last_with (fun m => computed m o tbl) (length (l_nostore l)) (l_nostore l);
  match i, j with
  | None, None => Ok (([], l_stack l, l_g l), instr, l_nostore l, false)
  | _, _ =>
      do plan <- match j, i with
                 | Some _, _ => Ok (length instr, instr, [], false)
                 | None, Some k =>
                     do m <- of_option (nth_error instr k);
                     if String.eqb m o
                     then Ok (k, firstn k instr ++ skipn (S k) instr, l_nostore l, existsb is_write (skipn k instr))
                     else Ok (S k, instr, l_nostore l, false)
                 | None, None => Raise OtherError
                 end;
      let '(p, instr, nostore, before_store) := plan in
      do out <- run_memory fuel P (l_solved l) (firstn p instr) (l_stack l) (l_g l);
      let rest := skipn p instr in
      Ok (out, rest, match rest with [] => [] | _ => nostore end, before_store)
  end.
(** src/greedy/greedy_previous_param.py:1263-1345 *)
Definition do_build (fuel : nat) (P : setup) (pos : nat) (l : lstate) : result lstate :=
  do o <- of_option (nth_error (g_final P) pos);
  do b <- before_value fuel P o l;
  let '(out, instr, nostore, before_store) := b in
  let '(ops1, stack1, g1) := out in
  do out2 <- (if before_store : bool then compute_memory_op fuel P (l_solved l) o stack1 (with_dup 0 g1)
              else compute_regular_op fuel P (l_solved l) o stack1 (with_dup 0 g1));
  let '(ops2, stack2, g2) := out2 in
  let pis := len stack2 + Z.of_nat pos - len (g_final P) in
  do g3 <- (if ((pis <? 0) || (Z.of_nat (g_reach P) <? pis)) && match need g2 o with None => true | Some n => n =? 0 end
            then do top <- of_option (nth_error stack2 0); Ok (with_need (UtilModel.dict_set top 1 (g_need g2)) g2)
            else Ok g2);
  if (0 <? pis) && (pis <=? Z.of_nat (g_reach P)) then
    do stack3 <- swap_top stack2 pis;
    do _ <- py_assert (len stack2 =? len stack3);
    Ok {| l_ops := l_ops l ++ ops1 ++ ops2 ++ [same (swap_name pis)]; l_stack := stack3; l_solved := l_solved l ++ [Z.of_nat pos];
          l_instr := instr; l_nostore := nostore; l_g := g3 |}
  else
    Ok {| l_ops := l_ops l ++ ops1 ++ ops2; l_stack := stack2; l_solved := l_solved l;
          l_instr := instr; l_nostore := nostore; l_g := g3 |}.

(** src/greedy/greedy_previous_param.py:1346-1353 *)
Definition do_memory (fuel : nat) (P : setup) (l : lstate) : result lstate :=
  match l_instr l with
  | [] => Raise OtherError
  | o :: instr =>
      do out <- compute_memory_op fuel P (l_solved l) o (l_stack l) (with_dup 0 (l_g l));
      let '(ops, cstack, g) := out in
      do _ <- (if is_write o then do i <- of_option (opid_instr (g_tbl g) o); py_assert (length (i_outpt i) <=? 1)%nat else Ok tt);
      Ok {| l_ops := l_ops l ++ ops; l_stack := cstack; l_solved := l_solved l; l_instr := instr; l_nostore := l_nostore l; l_g := g |}
  end.

(** src/greedy/greedy_previous_param.py:1355-1378 *)
Definition do_finish (fuel : nat) (P : setup) (l : lstate) : result lstate :=
  do _ <- py_assert (match rev (l_instr l) with [] => true | m :: _ => is_write m end);
  do out <- for_each (fun acc m =>
    let '(ops, cstack, g) := acc in
    do out <- compute_memory_op fuel P (l_solved l) m cstack (with_dup 0 g);
    let '(nops, cstack, g) := out in
    let r := pop_unneeded P (l_solved l) g cstack in
    Ok (ops ++ nops ++ fst r, snd r, g)) (l_instr l) (l_ops l, l_stack l, l_g l);
  let '(ops, cstack, g) := out in
  Ok {| l_ops := ops; l_stack := cstack; l_solved := l_solved l; l_instr := []; l_nostore := l_nostore l; l_g := g |}.

(** src/greedy/greedy_previous_param.py:1228-1379: one iteration; the flag tells
    that the loop ends *)
Definition search_step (fuel : nat) (P : setup) (l : lstate) : result (lstate * bool) :=
  let r := pop_unneeded P (l_solved l) (l_g l) (l_stack l) in
  let l := {| l_ops := l_ops l ++ fst r; l_stack := snd r; l_solved := l_solved l; l_instr := l_instr l;
              l_nostore := l_nostore l; l_g := l_g l |} in
  do store <- (if match l_instr l with m :: _ => is_write m | [] => false end then Ok true
               else stack_too_long P (l_stack l) (l_instr l) (l_g l));
  do next <- (if store : bool then do l' <- do_memory fuel P l; Ok (l', false)
              else
                do c <- choose_element P (l_solved l) (l_stack l) (l_g l);
                match c with
                | Place posc => do l' <- do_place P posc l; Ok (l', false)
                | Build pos => do l' <- do_build fuel P pos l; Ok (l', false)
                | Finish => do l' <- do_finish fuel P l; Ok (l', match l_instr l with [] => true | _ => false end)
                end);
  let '(l', stop) := next in
  Ok ({| l_ops := l_ops l'; l_stack := l_stack l'; l_solved := add_solved (l_stack l') (g_final P) (l_solved l');
         l_instr := l_instr l'; l_nostore := l_nostore l'; l_g := l_g l' |}, stop).
Fixpoint search_loop (n fuel : nat) (P : setup) (l : lstate) : result lstate :=
  match n with
  | O => Raise OutOfFuel
  | S n' => do r <- search_step fuel P l; if snd r : bool then Ok (fst r) else search_loop n' fuel P (fst r)
  end.

(** ** The stack before the search *)
(** src/greedy/greedy_previous_param.py:726-738: where the top belongs *)
Definition home (F stack : list string) (top : string) : option Z :=
  if len F <? len stack then
    match index_of top F with Some k => Some (len stack + (Z.of_nat k - len F)) | None => None end
  else
    match index_of top (skipn (length F - length stack) F) with Some k => Some (Z.of_nat k) | None => None end.
(** src/greedy/greedy_previous_param.py:716-744 *)
Fixpoint precompute_loop (fuel : nat) (P : setup) (stack : list string) (ops : list op) (g : gstate) : result outcome :=
  match stack with
  | [] => Ok (ops, stack, g)
  | top :: rest =>
      match fuel with
      | O => Raise OutOfFuel
      | S f =>
          if match need g top with None => true | Some n => n =? 0 end then
            precompute_loop f P rest (ops ++ [same "POP"]) (with_need (drop_key top (g_need g)) g)
          else
            match home (g_final P) stack top with
            | None => Ok (ops, stack, g)
            | Some pos =>
                do _ <- py_assert (0 <=? pos);
                if (Z.of_nat (g_reach P) <? pos) || (pos =? 0) then Ok (ops, stack, g)
                else
                  do x <- of_option (znth stack pos);
                  if String.eqb x top then Ok (ops, stack, g)
                  else do stack' <- swap_top stack pos; precompute_loop f P stack' (ops ++ [same (swap_name pos)]) g
            end
      end
  end.
(** src/greedy/greedy_previous_param.py:745-758: the positions in place, from
    the end ([rs] and [rf] are the two stacks reversed, [j] is [len(rf) - 1]) *)
Fixpoint already_solved (rs rf : list string) (j : Z) (solved : list Z) (g : gstate) : result (list Z * gstate) :=
  match rs, rf with
  | x :: rs', y :: rf' =>
      if String.eqb x y then
        do g <- match need g x with
                | None => Ok g
                | Some n => do _ <- py_assert (0 <? n);
                            Ok (with_need (if n =? 1 then drop_key x (g_need g) else UtilModel.dict_set x (n - 1) (g_need g)) g)
                end;
        already_solved rs' rf' (j - 1) (solved ++ [j]) g
      else already_solved rs' rf' (j - 1) solved g
  | _, _ => Ok (solved, g)
  end.
(** src/greedy/greedy_previous_param.py:713-758 *)
Definition precompute (fuel : nat) (P : setup) (g : gstate) : result (outcome * list Z) :=
  do out <- precompute_loop fuel P (g_initial P) [] g;
  let '(ops, stack, g) := out in
  do s <- already_solved (rev stack) (rev (g_final P)) (len (g_final P) - 1) [] g;
  Ok ((ops, stack, snd s), fst s).

(** src/greedy/greedy_previous_param.py:1210-1383 *)
Definition compute (fuel : nat) (P : setup) (ini : list op) (solved : list Z) (initial pending nostore : list string) (g : gstate)
  : result (list op * list instr) :=
  do l <- search_loop fuel fuel P
            {| l_ops := []; l_stack := initial; l_solved := solved; l_instr := pending; l_nostore := nostore; l_g := g |};
  do pids <- compute_permut_and_clean fuel (g_reach P) (g_final P) (l_stack l) (l_solved l);
  Ok (ini ++ l_ops l ++ map same pids, g_tbl (l_g l)).

(** src/greedy/greedy_previous_param.py:1856-1868: the search from the start,
    for the operations [pending] and [nostore] in the order found by [target].
    Also the instructions, which the search leaves changed. *)
Definition search (fuel : nat) (P : setup) (pending nostore : list string) (g : gstate) : result (list op * list instr) :=
  do pre <- precompute fuel P g;
  let '((ini, initial, g), solved) := pre in
  compute fuel P ini solved initial pending nostore g.
