(** Model of the construction of a block's specification (SFS):
    src/parser/cfg_block.py:450-658, src/parser/cfg_instruction.py:11-122 and
    177-238, src/parser/utils_parser.py:139-146 and 191-263. *)
From Verif Require Import Base Lexical SymExecModel AsmModel DepsModel.
Open Scope string_scope. Open Scope list_scope.

(** Python dictionaries as association lists, most recent binding first. *)
Definition dict_get {B} (x : string) (d : list (string * B)) : option B :=
  option_map snd (find (fun p => String.eqb (fst p) x) d).
Definition dict_get_default {B} (x : string) (d : list (string * B)) (b : B) : B :=
  match dict_get x d with Some y => y | None => b end.

(** Keys of [map_instructions]: operation name and arguments (or literals). *)
Definition key := (string * list string)%type.
Definition key_eqb (a b : key) : bool := String.eqb (fst a) (fst b) && list_eqb (snd a) (snd b).

(** src/parser/opcodes.py:3-112: the keys of the table *)
Definition opcode_keys : list string :=
  ["STOP"; "ADD"; "MUL"; "SUB"; "DIV"; "SDIV"; "MOD"; "SMOD"; "ADDMOD"; "MULMOD"; "EXP"; "SIGNEXTEND";
   "LT"; "GT"; "SLT"; "SGT"; "EQ"; "ISZERO"; "AND"; "OR"; "XOR"; "NOT"; "BYTE"; "SHL"; "SHR"; "SAR";
   "SHA3"; "KECCAK256"; "ADDRESS"; "BALANCE"; "ORIGIN"; "CALLER"; "CALLVALUE"; "CALLDATALOAD";
   "CALLDATASIZE"; "CALLDATACOPY"; "CODESIZE"; "CODECOPY"; "GASPRICE"; "EXTCODESIZE"; "EXTCODECOPY";
   "RETURNDATASIZE"; "MCOPY"; "RETURNDATACOPY"; "EXTCODEHASH"; "BLOCKHASH"; "COINBASE"; "TIMESTAMP";
   "NUMBER"; "DIFFICULTY"; "PREVRANDAO"; "GASLIMIT"; "CHAINID"; "SELFBALANCE"; "BASEFEE"; "BLOBHASH";
   "BLOBBASEFEE"; "POP"; "MLOAD"; "MSTORE"; "MSTORE8"; "SLOAD"; "SSTORE"; "JUMP"; "JUMPI"; "PC"; "MSIZE";
   "GAS"; "JUMPDEST"; "SLOADEXT"; "SSTOREEXT"; "TLOAD"; "TSTORE"; "SLOADBYTESEXT"; "SSTOREBYTESEXT";
   "LOG0"; "LOG1"; "LOG2"; "LOG3"; "LOG4"; "CREATE"; "CALL"; "CALLCODE"; "RETURN"; "DELEGATECALL";
   "CREATE2"; "BREAKPOINT"; "RNGSEED"; "SSIZEEXT"; "SLOADBYTES"; "SSTOREBYTES"; "SSIZE"; "STATICCALL";
   "STATEROOT"; "TXEXECGAS"; "CALLSTATIC"; "REVERT"; "ASSERTFAIL"; "INVALID"; "SUICIDE";
   "ASSIGNIMMUTABLE"; "PUSH [TAG]"; "PUSHLIB"; "PUSH #[$]"; "PUSH [$]"; "PUSHDEPLOYADDRESS"; "PUSH data";
   "PUSHSIZE"; "PUSHIMMUTABLE"; "---END---"; "DATASIZE"; "DATAOFFSET"].

Definition dups_and_swaps : list string :=
  map (fun n => ("DUP" ++ str_nat n)%string) (seq 1 16) ++ map (fun n => ("SWAP" ++ str_nat n)%string) (seq 1 16).

(** src/parser/opcodes.py:229-274, [exists_opcode] *)
Definition exists_opcode (op : string) : bool :=
  mem op opcode_keys || String.eqb op "SELFDESTRUCT" || startswith "PUSH" op || startswith "tag" op
  || mem op dups_and_swaps.

(** Python's [s.lower()] (ASCII letters only) *)
Definition lower_ascii (c : ascii) : ascii :=
  let n := nat_of_ascii c in
  if ((65 <=? n) && (n <=? 90))%nat then ascii_of_nat (n + 32) else c.
Fixpoint lower (s : string) : string :=
  match s with EmptyString => EmptyString | String c s' => String (lower_ascii c) (lower s') end.

(** src/parser/constants.py:6-8 *)
Definition memory_storage_instructions : list string :=
  ["calldatacopy"; "create"; "codecopy"; "call"; "log4"; "gas"; "delegatecall"; "extcodecopy"; "create2";
   "assignimmutable"; "returndatacopy"; "log2"; "log1"; "log3"; "log0"; "datacopy"; "staticcall"; "tstore";
   "mstore"; "mcopy"; "mstore8"; "sstore"].

(** src/parser/utils_parser.py:107-108 *)
Definition is_commutative (op : string) : bool := mem op ["ADD"; "MUL"; "EQ"; "AND"; "OR"; "XOR"].

(** src/parser/utils_parser.py:75-104: [get_ins_size] raises on an unknown
    operation starting with PUSH; called without value, also on "PUSH" (val is
    None). *)
Definition size_known (op : string) : bool :=
  mem op ["ASSIGNIMMUTABLE"; "PUSH0"; "PUSH #[$]"; "PUSHSIZE"; "PUSH [TAG]"; "PUSH data"; "PUSH [$]";
          "PUSHLIB"; "PUSHDEPLOYADDRESS"; "PUSHIMMUTABLE"; "tag"] || negb (startswith "PUSH" op).

(** src/parser/cfg_instruction.py:11-30.  Line 17 raises for DUPi/SWAPi and
    "tag...": their table entry is hexadecimal text. *)
Definition build_instr_spec (op : string) (idx : nat) (inp out : list string) (value : option (list string))
  : result instr :=
  if startswith "tag" op || mem op dups_and_swaps then Raise OtherError
  else if negb (size_known op) then Raise OtherError
  else Ok {| i_id := (op ++ "_" ++ str_nat idx)%string; i_disasm := op; i_inpt := inp; i_outpt := out;
             i_comm := is_commutative op; i_storage := mem (lower op) memory_storage_instructions;
             i_value := option_map (map PStr) value |}.

(** src/parser/cfg_instruction.py:33-53 *)
Definition build_push_spec (val : string) (idx : nat) (out : list string) : result instr :=
  do z <- of_option (py_int16 val);
  let name := if (z =? 0)%Z then "PUSH0" else "PUSH" in
  Ok {| i_id := (name ++ "_" ++ str_nat idx)%string; i_disasm := name; i_inpt := []; i_outpt := out;
        i_comm := false; i_storage := false; i_value := Some [PInt z] |}.

(** src/parser/cfg_instruction.py:79-99 *)
Definition build_verbatim_spec (name : string) (inp out lits : list string) : result instr :=
  do l <- of_option (nth_error lits 0);
  Ok {| i_id := (name ++ "_args_" ++ l)%string; i_disasm := "VERBATIM"; i_inpt := inp; i_outpt := out;
        i_comm := false; i_storage := true; i_value := None |}.

(** src/parser/cfg_instruction.py:102-122 *)
Definition build_custom_function_spec (name : string) (inp out : list string) : instr :=
  {| i_id := name; i_disasm := name; i_inpt := inp; i_outpt := out; i_comm := false; i_storage := true;
     i_value := None |}.

(** State of the construction: the instructions built so far
    ([uninter_functions]); [map_instructions], whose values are references to
    those (shared, mutable) dictionaries, kept as positions; the counters
    [instrs_idx]; [new_out_idx]; [map_positions_instructions];
    [aliasing_dict]. *)
Record bstate := {
  b_ui : list instr;
  b_map : list (key * nat);
  b_idx : list (string * nat);
  b_out : nat;
  b_pos : list (nat * string);
  b_alias : list (string * string)
}.
Definition init_bstate : bstate :=
  {| b_ui := []; b_map := []; b_idx := []; b_out := 0; b_pos := []; b_alias := [] |}.

Definition map_get (k : key) (st : bstate) : option nat :=
  option_map snd (find (fun p => key_eqb (fst p) k) (b_map st)).
Definition idx_get (n : string) (st : bstate) : nat := dict_get_default n (b_idx st) 0.
Definition bump (n : string) (st : bstate) : list (string * nat) := (n, S (idx_get n st)) :: b_idx st.

(** append an instruction and register it under a key *)
Definition append (st : bstate) (i : instr) (k : key) (idx : list (string * nat)) (out : nat) : bstate :=
  {| b_ui := b_ui st ++ [i]; b_map := (k, length (b_ui st)) :: b_map st; b_idx := idx; b_out := out;
     b_pos := b_pos st; b_alias := b_alias st |}.

(** Name of the push for a constant (src/parser/cfg_instruction.py:195,
    src/parser/cfg_block.py:492 and 555). *)
Definition push_name (v : string) : result string :=
  do z <- of_option (py_int16 v); Ok (if (z =? 0)%Z then "PUSH0" else "PUSH").

(** A new push of [v] into the variables [out], under key [k]. *)
Definition new_push (st : bstate) (v : string) (out : list string) (k : key) (fresh : nat) : result bstate :=
  do nm <- push_name v;
  do p <- build_push_spec v (idx_get nm st) out;
  Ok (append st p k (bump nm st) fresh).

Definition out0 (st : bstate) (n : nat) : result string :=
  do i <- of_option (nth_error (b_ui st) n); of_option (nth_error (i_outpt i) 0).

(** src/parser/cfg_instruction.py:183-210: one argument *)
Definition resolve_arg (st : bstate) (v : string) : result (bstate * string) :=
  if startswith "0x" v then
    match map_get ("PUSH", [v]) st with
    | Some n => do o <- out0 st n; Ok (st, o)
    | None =>
        let o := ("s" ++ str_nat (b_out st))%string in
        do st' <- new_push st v [o] ("PUSH", [v]) (S (b_out st));
        Ok (st', o)
    end
  else Ok (st, v).
Fixpoint resolve_args (st : bstate) (vs : list string) : result (bstate * list string) :=
  match vs with
  | [] => Ok (st, [])
  | v :: vs' =>
      do p <- resolve_arg st v; let '(st1, o) := p in
      do q <- resolve_args st1 vs'; let '(st2, os) := q in
      Ok (st2, o :: os)
  end.

(** src/parser/cfg_instruction.py:178-238 *)
Definition build_op (st : bstate) (ins : cins) : result bstate :=
  do p <- resolve_args st (c_in ins); let '(st1, inp) := p in
  let op := upper (c_op ins) in
  let idx := idx_get op st1 in
  do i <-
    (if contains "VERBATIM" op then do l <- of_option (c_lit ins); build_verbatim_spec op inp (c_out ins) l
     else if exists_opcode op then
       if mem (c_op ins) ["pushlib"; "push #[$]"; "push [$]"; "pushimmutable"; "assignimmutable"]
       then build_instr_spec op idx inp (c_out ins) (c_lit ins)
       else if String.eqb (c_op ins) "push"
       then do l <- of_option (c_lit ins); do l0 <- of_option (nth_error l 0); build_push_spec l0 idx (c_out ins)
       else build_instr_spec op idx inp (c_out ins) None
     else Ok (build_custom_function_spec op inp (c_out ins)));
  do k <- (if startswith "push" (c_op ins) then do l <- of_option (c_lit ins); Ok (op, l)
           else Ok (op, c_in ins));
  Ok (append st1 i k (bump op st1) (b_out st1)).

(** src/parser/cfg_instruction.py:151-157 *)
Definition memory_operation (op : string) : bool :=
  existsb (fun s => contains s (upper op)) ["STORE"; "LOAD"; "KECCAK"] || negb (mem op opcode_keys).

Definition set_pos (k : nat) (id : string) (st : bstate) : bstate :=
  {| b_ui := b_ui st; b_map := b_map st; b_idx := b_idx st; b_out := b_out st;
     b_pos := (k, id) :: b_pos st; b_alias := b_alias st |}.
Definition set_alias (x y : string) (st : bstate) : bstate :=
  {| b_ui := b_ui st; b_map := b_map st; b_idx := b_idx st; b_out := b_out st;
     b_pos := b_pos st; b_alias := (x, y) :: b_alias st |}.
Definition set_ui (ui : list instr) (st : bstate) : bstate :=
  {| b_ui := ui; b_map := b_map st; b_idx := b_idx st; b_out := b_out st;
     b_pos := b_pos st; b_alias := b_alias st |}.
Definition with_inpt (inp : list string) (i : instr) : instr :=
  {| i_id := i_id i; i_disasm := i_disasm i; i_inpt := inp; i_outpt := i_outpt i; i_comm := i_comm i;
     i_storage := i_storage i; i_value := i_value i |}.
Definition with_outpt (out : list string) (i : instr) : instr :=
  {| i_id := i_id i; i_disasm := i_disasm i; i_inpt := i_inpt i; i_outpt := out; i_comm := i_comm i;
     i_storage := i_storage i; i_value := i_value i |}.

(** src/parser/cfg_block.py:472-487: look for an already built instruction *)
Definition lookup (st : bstate) (k : nat) (ins : cins) : result (bstate * option nat) :=
  if startswith "push" (c_op ins) then
    do l <- of_option (c_lit ins); Ok (st, map_get (upper (c_op ins), l) st)
  else
    let r := map_get (upper (c_op ins), c_in ins) st in
    if negb (memory_operation (c_op ins)) then Ok (st, r)
    else match r with
    | None => Ok (st, None)
    | Some n =>
        if startswith "LiteralAssigment" (c_op ins) then Raise OtherError
        else
          do i <- of_option (nth_error (b_ui st) n);
          if (length (i_outpt i) =? 0)%nat || negb (list_eqb (i_outpt i) (c_out ins)) then Ok (st, None)
          else Ok (set_pos k (i_id i) st, Some n)
    end.

(** src/parser/cfg_block.py:470-526: one iteration *)
Definition build_step (st : bstate) (k : nat) (ins : cins) : result bstate :=
  do p <- lookup st k ins; let '(st, found) := p in
  match found with
  | None =>
      do st' <- (if startswith "LiteralAssignment" (c_op ins) then
                   do v <- of_option (nth_error (c_in ins) 0);
                   new_push st v (c_out ins) ("LITERALASSIGMENT", c_in ins) (b_out st)
                 else build_op st ins);
      do i <- of_option (nth_error (rev (b_ui st')) 0);
      Ok (set_pos k (i_id i) st')
  | Some n =>
      if String.eqb (c_op ins) "push" then
        do o <- out0 st n;
        do o' <- of_option (nth_error (c_out ins) 0);
        let ren x := if String.eqb x o then o' else x in
        do i <- of_option (nth_error (b_ui st) n);
        let ui := map (fun j => with_inpt (map ren (i_inpt j)) j) (set_nth n (with_outpt (c_out ins) i) (b_ui st)) in
        Ok (set_alias o o' (set_ui ui st))
      else
        do old <- of_option (nth_error (c_out ins) 0);
        do o <- out0 st n;
        Ok (set_alias old o st)
  end.
Fixpoint build_loop (st : bstate) (k : nat) (l : list cins) : result bstate :=
  match l with
  | [] => Ok st
  | ins :: l' => do st' <- build_step st k ins; build_loop st' (S k) l'
  end.

(** src/parser/cfg_block.py:530-538 *)
Definition stack_before_split (split : option cins) (final : list string) : list string :=
  match split with
  | Some s => c_in s ++ skipn (length (c_out s)) final
  | None => final
  end.

(** src/parser/cfg_block.py:542-546: the entries added to [assignment_dict], in
    insertion order.  Simplification: the dictionary of a block is created
    empty (src/parser/parser.py:100), and these entries are removed again
    (lines 569-570), so it is empty before. *)
Fixpoint const_entries (acc : list (string * string)) (l : list string) : list (string * string) :=
  match l with
  | [] => acc
  | v :: l' =>
      if (String.eqb v "bottom" || startswith "0x" v) && negb (mem v (map fst acc))
      then const_entries (acc ++ [(v, if String.eqb v "bottom" then "0x00" else v)]) l'
      else const_entries acc l'
  end.

(** src/parser/cfg_block.py:549-565 *)
Definition add_entry (st : bstate) (p : string * string) : result bstate :=
  let '(out, v) := p in
  if startswith "0x" v then
    match map_get ("PUSH", [v]) st with
    | None => do st' <- new_push st v [out] ("PUSH", [v]) (b_out st); Ok (set_alias out out st')
    | Some n => do o <- out0 st n; Ok (set_alias out o st)
    end
  else Ok st.

(** src/parser/utils_parser.py:207-256 *)
Definition var2id (instrs : list instr) (x : string) : option string :=
  option_map i_id (find (fun i => mem x (i_outpt i)) (rev instrs)).
Definition filter_map {A B} (f : A -> option B) (l : list A) : list B :=
  flat_map (fun a => match f a with Some b => [b] | None => [] end) l.
Definition successors (instrs : list instr) (id : string) : list string :=
  flat_map (fun i => if String.eqb (i_id i) id then filter_map (var2id instrs) (i_inpt i) else []) instrs.
(** src/parser/utils_parser.py:227-235; [fuel] bounds the recursion depth *)
Fixpoint dfs (fuel : nat) (succ : string -> list string) (node : string) (seen : list string)
  : result (list string) :=
  match fuel with
  | O => Raise OutOfFuel
  | S fuel' =>
      if mem node seen then Ok seen
      else for_each (fun s n => dfs fuel' succ n s) (succ node) (node :: seen)
  end.
Definition roots (instrs : list instr) (final : list string) : list string :=
  filter_map (var2id instrs) final ++ map i_id (filter i_storage instrs).
(** The fuel is never exhausted: see [dfs_terminates]. *)
Definition reachable_ids (instrs : list instr) (final : list string) : result (list string) :=
  for_each (fun s n => dfs (S (S (length instrs))) (successors instrs) n s) (roots instrs final) [].
Definition detect_unused_instructions (instrs : list instr) (final : list string) : result (list string) :=
  do r <- reachable_ids instrs final;
  Ok (filter (fun id => negb (mem id r)) (map i_id instrs)).

(** src/parser/utils_parser.py:191-204 *)
Definition replace_aliasing (alias : list (string * string)) (i : instr) : instr :=
  with_inpt (map (fun x => dict_get_default x alias x) (i_inpt i))
    (with_outpt (map (fun x => dict_get_default x alias x) (i_outpt i)) i).

(** src/parser/utils_parser.py:139-146 *)
Definition pos_id (pos : list (nat * string)) (n : nat) : option string :=
  option_map snd (find (fun p => (fst p =? n)%nat) pos).
Definition replace_pos_instrsid (pos : list (nat * string)) (deps : list (nat * nat))
  : result (list (string * string)) :=
  map_result (fun e =>
    match pos_id pos (fst e), pos_id pos (snd e) with
    | Some a, Some b => Ok (a, b)
    | _, _ => Raise AssertionError
    end) deps.

(** src/parser/utils_parser.py:258-263 *)
Definition delete_unused (unused : list string) (deps : list (string * string)) : list (string * string) :=
  filter (fun e => negb (mem (fst e) unused) && negb (mem (snd e) unused)) deps.

(** src/parser/cfg_block.py:377-402.  [nx.transitive_reduction] returns a graph
    whose edge order differs from the input's; the order of the list of
    dependencies is irrelevant to every use of it. *)
Definition process_dependences (instrs : list cins) (pos : list (nat * string))
  : result (list (list (string * string))) :=
  do sto <- compute_storage_dependences instrs;
  do sto' <- replace_pos_instrsid pos (simplify_dependences sto);
  do mm <- compute_memory_dependences instrs;
  do mm' <- replace_pos_instrsid pos (simplify_dependences mm);
  do tra <- compute_transient_dependences instrs;
  do tra' <- replace_pos_instrsid pos (simplify_dependences tra);
  do gas <- compute_gas_dependences instrs;
  do gas' <- replace_pos_instrsid pos (simplify_dependences gas);
  Ok [sto'; mm'; tra'; gas'].

(** src/parser/cfg_block.py:450-611 *)
Definition build_spec_for_sequence (instrs : list cins) (split : option cins) (initial final : list string)
  : result (sfs * list (nat * string) * list string) :=
  do st <- build_loop init_bstate 0 instrs;
  let fin := stack_before_split split final in
  do st2 <- for_each add_entry (const_entries [] fin) st;
  let tgt := map (fun v => dict_get_default v (b_alias st2) v) fin in
  do unused <- detect_unused_instructions (b_ui st2) tgt;
  let kept := filter (fun i => negb (mem (i_id i) unused)) (b_ui st2) in
  Ok ({| s_src := initial; s_tgt := tgt; s_instrs := map (replace_aliasing (b_alias st2)) kept; s_deps := [] |},
      b_pos st2, unused).

(** src/parser/cfg_block.py:634-658 *)
Definition build_spec (instrs : list cins) (split : option cins) (initial final : list string) : result sfs :=
  do p <- build_spec_for_sequence instrs split initial final;
  let '(s, pos, unused) := p in
  do deps <- process_dependences instrs pos;
  Ok {| s_src := s_src s; s_tgt := s_tgt s; s_instrs := s_instrs s;
        s_deps := flat_map (delete_unused unused) deps |}.
