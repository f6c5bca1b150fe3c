(** Model of src/analysis/instruction_dependencies.py: which pairs of
    positions of a block must keep their order. *)
From Verif Require Import Base Lexical.

(** src/parser/cfg_instruction.py:125-140: an instruction of a block, with
    [in_args]/[out_args] as stored (already reversed by the constructor), and
    the literals returned by [get_literal_args] (lines 263-270). *)
Record cins := { c_op : string; c_in : list string; c_out : list string;
                 c_lit : option (list string) }.

(** src/parser/cfg_instruction.py:429-431 ([__eq__]: literals are ignored) *)
Definition cins_eqb (a b : cins) : bool :=
  list_eqb (c_out a) (c_out b) && list_eqb (c_in a) (c_in b) && String.eqb (c_op a) (c_op b).

(** Python's [int(s, 16)]: white space, sign, optional 0x/0X prefix,
    hexadecimal digits, single underscores.  Simplification: ASCII only. *)
Definition hex_digit (c : ascii) : option Z :=
  let n := nat_of_ascii c in
  if (48 <=? n) && (n <=? 57) then Some (Z.of_nat (n - 48))
  else if (97 <=? n) && (n <=? 102) then Some (Z.of_nat (n - 87))
  else if (65 <=? n) && (n <=? 70) then Some (Z.of_nat (n - 55))
  else None.
Fixpoint hex_digits (l : list ascii) (acc : Z) (prev_digit : bool) : option Z :=
  match l with
  | [] => if prev_digit then Some acc else None
  | c :: l' =>
      match hex_digit c with
      | Some d => hex_digits l' (acc * 16 + d)%Z true
      | None => if Ascii.eqb c "_"%char && prev_digit then hex_digits l' acc false else None
      end
  end.
(** after "0x" one underscore is allowed *)
Definition hex_body (l : list ascii) : option Z :=
  match l with
  | a :: b :: l' =>
      if Ascii.eqb a "0"%char && (Ascii.eqb b "x"%char || Ascii.eqb b "X"%char)
      then match l' with
           | u :: l'' => if Ascii.eqb u "_"%char then hex_digits l'' 0 false else hex_digits l' 0 false
           | [] => None
           end
      else hex_digits l 0 false
  | _ => hex_digits l 0 false
  end.
Definition py_int16 (s : string) : option Z :=
  match strip (list_ascii_of_string s) with
  | [] => None
  | c :: l =>
      if Ascii.eqb c "-"%char then option_map Z.opp (hex_body l)
      else if Ascii.eqb c "+"%char then hex_body l
      else hex_body (c :: l)
  end.

(** src/global_params/types.py, [expression_T]: int | variable | (op, args) *)
Inductive expr := EInt (z : Z) | EVar (x : string) | EOp (op : string) (args : list expr).

(** The chained equality test of line 48. *)
Fixpoint all_eq_adjacent (l : list cins) : bool :=
  match l with
  | a :: ((b :: _) as l') => cins_eqb a b && all_eq_adjacent l'
  | _ => true
  end.

(** src/analysis/instruction_dependencies.py:32-58.  The recursion of the code
    has no syntactic bound; [fuel] bounds its depth. *)
Fixpoint get_expression (fuel : nat) (var : string) (instrs : list cins) : result expr :=
  match fuel with
  | O => Raise OutOfFuel
  | S fuel' =>
      if startswith "0x" var then do z <- of_option (py_int16 var); Ok (EInt z)
      else
        match filter (fun i => mem var (c_out i)) instrs with
        | [] => Ok (EVar var)
        | c :: cs =>
            do _ <- py_assert (all_eq_adjacent (c :: cs));
            do args <- map_result (fun v => get_expression fuel' v instrs) (c_in c);
            Ok (EOp (c_op c) args)
        end
  end.

(** src/analysis/instruction_dependencies.py:61-76 *)
Fixpoint is_member_recursive (x : string) (e : expr) : bool :=
  match e with
  | EInt _ => false
  | EVar y => String.eqb x y
  | EOp _ args => existsb (is_member_recursive x) args
  end.

(** src/analysis/instruction_dependencies.py:79-101.  The marker "inf" is a
    string in the code, hence the same as a variable of that name. *)
Definition are_dependent_accesses (v1 v2 : expr) : bool :=
  match v1, v2 with
  | EVar x, EVar y => true
  | EInt a, EInt b => (a =? b)%Z
  | EVar x, EOp _ _ => if String.eqb x "inf" then true else negb (is_member_recursive x v2)
  | EOp _ _, EVar y => if String.eqb y "inf" then true else negb (is_member_recursive y v1)
  | _, _ => true
  end.

(** src/analysis/instruction_dependencies.py:121-125 *)
Definition overlap (idx1 off1 idx2 off2 : Z) : bool :=
  ((idx1 <=? idx2) && (idx2 <? idx1 + off1) || (idx2 <=? idx1) && (idx1 <? idx2 + off2))%Z.

(** src/analysis/instruction_dependencies.py:104-118 *)
Definition are_dependent_interval (i1 i2 : expr * expr) : bool :=
  match i1, i2 with
  | (EInt a, EInt oa), (EInt b, EInt ob) => overlap a oa b ob
  | _, _ => true
  end.

(** src/parser/cfg_instruction.py:252-258 *)
Definition get_type_mem_op (op : string) : option string :=
  if mem op ["tload";"sload";"mload";"keccak256";"log0";"log1";"log2";"log3";"log4";"create";"create2"]%string
  then Some "read"%string
  else if mem op ["assignimmutable";"tstore";"mstore";"mstore8";"codecopy";"extcodecopy";"calldatacopy";
                  "returndatacopy";"mcopy";"sstore"]%string
  then Some "write"%string else None.

(** src/analysis/instruction_dependencies.py:128-132 *)
Definition is_write (t : option string) : bool :=
  match t with Some s => String.eqb s "write" | None => false end.
Definition generate_dep (t1 t2 : option string) : bool := is_write t1 || is_write t2.

(** All pairs (first, second) with first strictly before second in the list:
    the double comprehension of lines 158-161. *)
Fixpoint ordered_pairs {A} (l : list A) : list (A * A) :=
  match l with
  | [] => []
  | a :: l' => map (fun b => (a, b)) l' ++ ordered_pairs l'
  end.

(** A loop [for i, ins in enumerate(instructions)] that appends to a list;
    [pre] is [instructions[:i]]. *)
Fixpoint collect {A} (f : list cins -> nat -> cins -> result (list A)) (pre : list cins) (i : nat)
  (l : list cins) : result (list A) :=
  match l with
  | [] => Ok []
  | ins :: l' =>
      do xs <- f pre i ins;
      do ys <- collect f (pre ++ [ins]) (S i) l';
      Ok (xs ++ ys)
  end.

(** [ins.get_in_args()[k]] *)
Definition arg (i : cins) (k : nat) : result string := of_option (nth_error (c_in i) k).

(** get_expression on [instructions[:i]]; the fuel is enough for every
    non-cyclic chain of definitions. *)
Definition expr_of (pre : list cins) (v : string) : result expr :=
  get_expression (S (S (length pre))) v pre.

Definition call_ops : list string := ["call"; "delegatecall"; "staticcall"; "callcode"]%string.

(** src/analysis/instruction_dependencies.py:141-156 (and 172-187): position,
    accessed slot and kind of access. *)
Definition slot_entry (loads : list string) (pre : list cins) (i : nat) (ins : cins)
  : result (list (nat * expr * option string)) :=
  if mem (c_op ins) loads then
    do v <- arg ins 0;
    do e <- expr_of pre v;
    Ok [(i, e, get_type_mem_op (c_op ins))]
  else if mem (c_op ins) call_ops then Ok [(i, EVar "inf", Some "write"%string)]
  else Ok [].

Definition slot_dependences (loads : list string) (instrs : list cins) : result (list (nat * nat)) :=
  do acc <- collect (slot_entry loads) [] 0 instrs;
  Ok (map (fun p => (fst (fst (fst p)), fst (fst (snd p))))
       (filter (fun p => are_dependent_accesses (snd (fst (fst p))) (snd (fst (snd p)))
                         && generate_dep (snd (fst p)) (snd (snd p))) (ordered_pairs acc))).

(** src/analysis/instruction_dependencies.py:137-165 *)
Definition compute_storage_dependences := slot_dependences ["sload"; "sstore"]%string.
(** src/analysis/instruction_dependencies.py:168-196 *)
Definition compute_transient_dependences := slot_dependences ["tload"; "tstore"]%string.

(** src/analysis/instruction_dependencies.py:12-29: argument positions of the
    memory range(s) *)
Definition get_interval (op : string) : option ((nat * nat) + (nat * nat) * (nat * nat)) :=
  if mem op ["keccak256"; "log0"; "log1"; "log2"; "log3"; "log4"]%string then Some (inl (0, 1))
  else if mem op ["codecopy"; "calldatacopy"; "returndatacopy"]%string then Some (inl (0, 2))
  else if mem op ["extcodecopy"]%string then Some (inl (1, 3))
  else if mem op ["create"; "create2"]%string then Some (inl (1, 2))
  else if mem op ["call"; "callcode"]%string then Some (inr ((3, 4), (5, 6)))
  else if mem op ["mcopy"]%string then Some (inr ((1, 2), (0, 2)))
  else if mem op ["delegatecall"; "staticcall"]%string then Some (inr ((2, 3), (4, 5)))
  else None.

Definition range_of (pre : list cins) (ins : cins) (k : nat * nat) : result (expr * expr) :=
  do a <- arg ins (fst k); do b <- arg ins (snd k);
  do ea <- expr_of pre a; do eb <- expr_of pre b; Ok (ea, eb).

(** src/analysis/instruction_dependencies.py:205-239.  The order in which the
    arguments are looked up (IndexError) and evaluated is simplified: all
    failures are the same "other exception". *)
Definition mem_entry (pre : list cins) (i : nat) (ins : cins)
  : result (list (nat * (expr * expr) * option string)) :=
  let op := c_op ins in
  if mem op ["mload"; "mstore"; "mstore8"]%string then
    do v <- arg ins 0; do e <- expr_of pre v;
    Ok [(i, (e, EInt 32), get_type_mem_op op)]
  else if String.eqb op "assignimmutable" then
    Ok [(i, (EInt 0, EVar "inf"), Some "write"%string)]
  else match get_interval op with
  | Some (inl k) => do r <- range_of pre ins k; Ok [(i, r, get_type_mem_op op)]
  | Some (inr (k1, k2)) =>
      do r1 <- range_of pre ins k1; do r2 <- range_of pre ins k2;
      Ok [(i, r1, Some "read"%string); (i, r2, Some "write"%string)]
  | None => Ok []
  end.

(** src/analysis/instruction_dependencies.py:201-248 *)
Definition compute_memory_dependences (instrs : list cins) : result (list (nat * nat)) :=
  do acc <- collect mem_entry [] 0 instrs;
  Ok (map (fun p => (fst (fst (fst p)), fst (fst (snd p))))
       (filter (fun p => negb (fst (fst (fst p)) =? fst (fst (snd p)))
                         && generate_dep (snd (fst p)) (snd (snd p))
                         && are_dependent_interval (snd (fst (fst p))) (snd (fst (snd p))))
               (ordered_pairs acc))).

(** src/analysis/instruction_dependencies.py:251-263 *)
Definition compute_gas_dependences (instrs : list cins) : result (list (nat * nat)) :=
  do acc <- collect (fun _ i ins => Ok (if mem (c_op ins) ["gas"%string] then [i] else [])) [] 0 instrs;
  Ok (ordered_pairs acc).

(** src/analysis/instruction_dependencies.py:266-269.  [nx.transitive_reduction]
    (networkx) on an acyclic graph: an edge (u, v) is dropped exactly when v is
    reachable from another successor of u.  Parallel edges are merged by
    [nx.DiGraph].  [reach n] follows at most [n] edges; with as many as there
    are edges every path is covered. *)
Definition edge_mem (e : nat * nat) (l : list (nat * nat)) : bool :=
  existsb (fun e' => (fst e =? fst e') && (snd e =? snd e')) l.
Fixpoint reach (n : nat) (deps : list (nat * nat)) (u v : nat) : bool :=
  match n with
  | O => false
  | S n' => existsb (fun e => (fst e =? u) && ((snd e =? v) || reach n' deps (snd e) v)) deps
  end.
Definition redundant (deps : list (nat * nat)) (e : nat * nat) : bool :=
  existsb (fun e' => (fst e' =? fst e) && negb (snd e' =? snd e) && reach (length deps) deps (snd e') (snd e)) deps.
Fixpoint dedup (l : list (nat * nat)) : list (nat * nat) :=
  match l with
  | [] => []
  | e :: l' => if edge_mem e l' then dedup l' else e :: dedup l'
  end.
Definition simplify_dependences (deps : list (nat * nat)) : list (nat * nat) :=
  filter (fun e => negb (redundant deps e)) (dedup deps).
