(** Small utilities of the compiler: sizes of constants, opcode bytes, splitting
    a file into JSON objects, jump tags, indices of sub-objects, dependency
    levels. *)
From Verif Require Import Base Lexical SymExecModel AsmModel DepsModel SpecModel.
Open Scope string_scope. Open Scope list_scope.

(* ------------------------------------------------------------------ *)
(** src/parser/utils_parser.py:41-46.  The argument is a decimal text. *)
Definition process_opcode (s : string) : result string :=
  do z <- of_option (py_int s);
  let op := hex_drop2 z in
  do z' <- of_option (py_int16 op);
  Ok (if (z' <? 12)%Z then ("0" ++ op)%string else op).

(** src/parser/utils_parser.py:57-60: the loop [while number != 0].  Python's
    [>>] on integers is the arithmetic shift [Z.shiftr]. *)
Fixpoint encoding_loop (fuel : nat) (number : Z) (i : nat) : result nat :=
  if (number =? 0)%Z then Ok i
  else match fuel with
       | O => Raise OutOfFuel
       | S fuel' => encoding_loop fuel' (Z.shiftr number 8) (S i)
       end.
(** src/parser/utils_parser.py:51-60.  The fuel is only there to have a total
    function: [encoding_ends] and [encoding_diverges] say when the loop ends. *)
Definition number_encoding_size_fuel (fuel : nat) (number : Z) : result nat :=
  encoding_loop fuel (if (number <? 0)%Z then (2 ^ 256 + number)%Z else number) 0.
Definition number_encoding_size (number : Z) : result nat :=
  number_encoding_size_fuel (S (Z.to_nat (Z.log2 (Z.max (Z.abs number) (2 ^ 256))))) number.

(** src/parser/utils_parser.py:64-65 *)
Definition get_num_bytes_int (v : Z) : result nat :=
  do n <- number_encoding_size v; Ok (Nat.max 1 n).

(** src/parser/utils_parser.py:69-70 *)
Definition get_push_number_hex (v : string) : result nat :=
  do z <- of_option (py_int16 v); get_num_bytes_int z.

(** src/parser/utils_parser.py:75-105, with the default address length 2. *)
Definition get_ins_size (op_name : string) (v : Z) : result nat :=
  if op_name =? "ASSIGNIMMUTABLE" then Ok 35
  else if op_name =? "PUSH0" then Ok 1
  else if op_name =? "PUSH" then do n <- get_num_bytes_int v; Ok (1 + n)
  else if mem op_name ["PUSH #[$]"; "PUSHSIZE"] then Ok 5
  else if mem op_name ["PUSH [TAG]"; "PUSH data"; "PUSH [$]"] then Ok 3
  else if mem op_name ["PUSHLIB"; "PUSHDEPLOYADDRESS"] then Ok 21
  else if op_name =? "PUSHIMMUTABLE" then Ok 33
  else if op_name =? "tag" then Ok 0
  else if negb (startswith "PUSH" op_name) then Ok 1
  else Raise OtherError.

(** src/parser/opcodes.py:3-118: name and byte (first element of the value).
    "MCOPY" occurs twice in the dictionary display; Python keeps the last. *)
Definition opcode_table : list (string * Z) :=
  [("STOP",0x00);("ADD",0x01);("MUL",0x02);("SUB",0x03);("DIV",0x04);("SDIV",0x05);("MOD",0x06);("SMOD",0x07);
   ("ADDMOD",0x08);("MULMOD",0x09);("EXP",0x0a);("SIGNEXTEND",0x0b);("LT",0x10);("GT",0x11);("SLT",0x12);("SGT",0x13);
   ("EQ",0x14);("ISZERO",0x15);("AND",0x16);("OR",0x17);("XOR",0x18);("NOT",0x19);("BYTE",0x1a);("SHL",0x1b);("SHR",0x1c);
   ("SAR",0x1d);("SHA3",0x20);("KECCAK256",0x20);("ADDRESS",0x30);("BALANCE",0x31);("ORIGIN",0x32);("CALLER",0x33);
   ("CALLVALUE",0x34);("CALLDATALOAD",0x35);("CALLDATASIZE",0x36);("CALLDATACOPY",0x37);("CODESIZE",0x38);("CODECOPY",0x39);
   ("GASPRICE",0x3a);("EXTCODESIZE",0x3b);("EXTCODECOPY",0x3c);("RETURNDATASIZE",0x3c);("MCOPY",0x5e);("RETURNDATACOPY",0x3e);
   ("EXTCODEHASH",0x3f);("BLOCKHASH",0x40);("COINBASE",0x41);("TIMESTAMP",0x42);("NUMBER",0x43);("DIFFICULTY",0x44);
   ("PREVRANDAO",0x44);("GASLIMIT",0x45);("CHAINID",0x46);("SELFBALANCE",0x47);("BASEFEE",0x48);("BLOBHASH",0x49);
   ("BLOBBASEFEE",0x4a);("POP",0x50);("MLOAD",0x51);("MSTORE",0x52);("MSTORE8",0x53);("SLOAD",0x54);("SSTORE",0x55);
   ("JUMP",0x56);("JUMPI",0x57);("PC",0x58);("MSIZE",0x59);("GAS",0x5a);("JUMPDEST",0x5b);("SLOADEXT",0x5c);("SSTOREEXT",0x5d);
   ("TLOAD",0x5c);("TSTORE",0x5d);("SLOADBYTESEXT",0x5c);("SSTOREBYTESEXT",0x5d);("LOG0",0xa0);("LOG1",0xa1);("LOG2",0xa2);
   ("LOG3",0xa3);("LOG4",0xa4);("CREATE",0xf0);("CALL",0xf1);("CALLCODE",0xf2);("RETURN",0xf3);("DELEGATECALL",0xf4);
   ("CREATE2",0xf5);("BREAKPOINT",0xf5);("RNGSEED",0xf6);("SSIZEEXT",0xf7);("SLOADBYTES",0xf8);("SSTOREBYTES",0xf9);
   ("SSIZE",0xfa);("STATICCALL",0xfa);("STATEROOT",0xfb);("TXEXECGAS",0xfc);("CALLSTATIC",0xfd);("REVERT",0xfd);
   ("ASSERTFAIL",0xfe);("INVALID",0xfe);("SUICIDE",0xff);("ASSIGNIMMUTABLE",0x00);("PUSH [TAG]",0x00);("PUSHLIB",0x00);
   ("PUSH #[$]",0x00);("PUSH [$]",0x00);("PUSHDEPLOYADDRESS",0x00);("PUSH data",0x00);("PUSHSIZE",0x00);("PUSHIMMUTABLE",0x00);
   ("---END---",0x00);("DATASIZE",0x00);("DATAOFFSET",0x00)]%Z.
Fixpoint lookup {A} (k : string) (d : list (string * A)) : option A :=
  match d with [] => None | (k', v) :: d' => if k' =? k then Some v else lookup k d' end.

(** src/parser/opcodes.py:209-251: the byte of an opcode, when it is an integer.
    The branches for tags, DUPi and SWAPi return a text ([hex(..)]), which
    [process_opcode] cannot read; they are not reached by the block
    specifications and are left out (the PUSHi loop is unreachable). *)
Definition get_opcode (op : string) : option Z :=
  match lookup op opcode_table with
  | Some b => Some b
  | None =>
      if op =? "SELFDESTRUCT" then Some 0xff%Z
      else if op =? "RETURNDATASIZE" then Some 0x3d%Z
      else if op =? "RETURNDATACOPY" then Some 0x3e%Z
      else if op =? "PUSH0" then Some 0x5f%Z
      else if startswith "PUSH" op then Some 0x60%Z
      else None
  end.

(* ------------------------------------------------------------------ *)
(** src/parser/utils_parser.py:149-181.  The text of the file is given as its
    list of characters; the result lists the keys of the dictionary (the
    position of the closing brace; the code uses its decimal text) with the
    decoded objects, and [loads] stands for json.loads ([None]: the decoding
    error that the code prints and ignores).  The test on line 163 compares one
    character with "null" and "" and never succeeds.  Simplification: [level]
    is a Python int, so [Z]. *)
Definition replace_quote (l : list ascii) : list ascii :=
  map (fun c => if Ascii.eqb c "'"%char then """"%char else c) l.
Definition slice (l : list ascii) (i j : nat) : list ascii := firstn (j - i) (skipn i l).
Section SplitJson.
Context {J : Type} (loads : list ascii -> option J).
Fixpoint split_loop (all : list ascii) (chars : list ascii) (i ini : nat) (level : Z) (out : list (nat * J)) : list (nat * J) :=
  match chars with
  | [] => out
  | c :: rest =>
      if Ascii.eqb c "{" then split_loop all rest (S i) (if (level =? 0)%Z then i else ini) (level + 1)%Z out
      else if Ascii.eqb c "}" then
        let level := (level - 1)%Z in
        if (level =? 0)%Z then
          match loads (replace_quote (slice all ini (S i))) with
          | Some j => split_loop all rest (S i) ini level (out ++ [(i, j)])
          | None => split_loop all rest (S i) ini level out
          end
        else split_loop all rest (S i) ini level out
      else split_loop all rest (S i) ini level out
  end.
Definition split_json (lines : list ascii) : list (nat * J) := split_loop lines lines 0 0 0%Z [].
End SplitJson.

(* ------------------------------------------------------------------ *)
(** src/cfg_methods/jump_insertion.py:69-78 *)
Definition tag_from_tag_dict (block_id : string) (tags : list (string * nat)) : nat * list (string * nat) :=
  match lookup block_id tags with
  | Some t => (t, tags)
  | None => let t := length tags + 1 in (t, tags ++ [(block_id, t)])
  end.
(** A history of requests on one dictionary, with the tags handed out. *)
Fixpoint tag_requests (ids : list string) (tags : list (string * nat)) : list nat * list (string * nat) :=
  match ids with
  | [] => ([], tags)
  | b :: ids' =>
      let (t, tags1) := tag_from_tag_dict b tags in
      let (ts, tags2) := tag_requests ids' tags1 in (t :: ts, tags2)
  end.

(* ------------------------------------------------------------------ *)
(** "{0:064X}".format(n): upper-case hexadecimal, padded with zeros to 64. *)
Fixpoint zeros (n : nat) : string := match n with O => "" | S n => String "0" (zeros n) end.
Definition fmt_064X (z : Z) : string :=
  let s := upper (hex_drop2 z) in (zeros (64 - String.length s) ++ s)%string.

(** [s.find(".")], [None] for -1 *)
Fixpoint find_dot (s : string) : option nat :=
  match s with
  | EmptyString => None
  | String c s' => if Ascii.eqb c "." then Some 0 else option_map S (find_dot s')
  end.

(** State of the translation of one block list: next index, and the index of
    each indirect reference. *)
Definition idx_state := (nat * list (string * nat))%type.

(** The index chosen on src/parser/cfg_instruction.py:302-320 (datasize) and
    329-345 (dataoffset), which are the same except for the operation name. *)
Definition object_index (subobjects : list (string * nat)) (st : idx_state) (lit : string) : Z * idx_state :=
  match lookup lit subobjects with
  | Some pos => (Z.of_nat pos, st)
  | None =>
      match find_dot lit with
      | Some 1 => (0%Z, st)
      | _ =>
          let '(next, ind) := st in
          match lookup lit ind with
          | Some pos => ((2 ^ 64 - 1 - Z.of_nat pos)%Z, st)
          | None => ((2 ^ 64 - 1 - Z.of_nat next)%Z, (S next, ind ++ [(lit, next)]))
          end
      end
  end.

(** src/parser/cfg_instruction.py:294-322: operation and literal. *)
Definition translate_datasize (subobjects : list (string * nat)) (object_id : string) (st : idx_state) (lit : string)
  : (string * string) * idx_state :=
  let op := if lit =? object_id then "pushsize" else "push #[$]" in
  let op := match lookup lit subobjects, find_dot lit with None, Some 1 => "PUSHSIZE" | _, _ => op end in
  let (z, st') := object_index subobjects st lit in ((op, fmt_064X z), st').
(** src/parser/cfg_instruction.py:324-349 *)
Definition translate_dataoffset (subobjects : list (string * nat)) (st : idx_state) (lit : string)
  : (string * string) * idx_state :=
  let (z, st') := object_index subobjects st lit in (("push [$]", fmt_064X z), st').

(** src/parser/cfg_block_list.py:266-271, cfg_block.py:392-396: the references
    of a block list are translated in turn, starting from index 0.  A reference
    is [true] for datasize, [false] for dataoffset. *)
Fixpoint translate_refs (subobjects : list (string * nat)) (object_id : string) (st : idx_state) (refs : list (bool * string))
  : list (string * string) :=
  match refs with
  | [] => []
  | (sz, lit) :: refs' =>
      let (r, st') := if sz : bool then translate_datasize subobjects object_id st lit else translate_dataoffset subobjects st lit in
      r :: translate_refs subobjects object_id st' refs'
  end.
Definition translate_block_list (subobjects : list (string * nat)) (object_id : string) (refs : list (bool * string)) :=
  translate_refs subobjects object_id (0, []) refs.

(* ------------------------------------------------------------------ *)
(** src/greedy/greedy_previous_param.py:95-118.  [mdeps] keeps, per id, the
    set of ids it depends on.  A set of texts is a duplicate-free list. *)
Definition set_add (x : string) (s : list string) : list string := if mem x s then s else s ++ [x].
Definition discard (x : string) (s : list string) : list string := filter (fun y => negb (x =? y)) s.
Fixpoint dict_set {A} (k : string) (v : A) (d : list (string * A)) : list (string * A) :=
  match d with
  | [] => [(k, v)]
  | (k', v') :: d' => if k' =? k then (k', v) :: d' else (k', v') :: dict_set k v d'
  end.
Definition ensure_key (k : string) (d : list (string * list string)) : list (string * list string) :=
  match lookup k d with Some _ => d | None => d ++ [(k, [])] end.
Definition add_dep (d : list (string * list string)) (p : string * string) : list (string * list string) :=
  let d := ensure_key (snd p) (ensure_key (fst p) d) in
  dict_set (snd p) (set_add (fst p) (match lookup (snd p) d with Some s => s | None => [] end)) d.
Definition initial_mdeps (deps : list (string * string)) : list (string * list string) := fold_left add_dep deps [].

(** Lines 107-112: the keys without pending dependencies get the current level
    and leave; lines 113-115: they are discarded everywhere. *)
Definition is_nil {A} (l : list A) : bool := match l with [] => true | _ => false end.
Definition level_round (mdeps : list (string * list string)) : list string * list (string * list string) :=
  let ready := map fst (filter (fun kv => is_nil (snd kv)) mdeps) in
  let left := filter (fun kv => negb (is_nil (snd kv))) mdeps in
  (ready, map (fun kv => (fst kv, fold_left (fun s x => discard x s) ready (snd kv))) left).
Fixpoint levels_loop (fuel : nat) (mdeps : list (string * list string)) (cmin : nat) (minmap : list (string * nat))
  : result (list (string * nat)) :=
  match mdeps with
  | [] => Ok minmap
  | _ => match fuel with
         | O => Raise OutOfFuel
         | S fuel' =>
             let (ready, mdeps') := level_round mdeps in
             levels_loop fuel' mdeps' (S cmin) (minmap ++ map (fun e => (e, cmin)) ready)
         end
  end.
Definition get_min_deps_map_fuel (fuel : nat) (deps : list (string * string)) : result (list (string * nat)) :=
  levels_loop fuel (initial_mdeps deps) 0 [].
Definition get_min_deps_map (deps : list (string * string)) : result (list (string * nat)) :=
  get_min_deps_map_fuel (length (initial_mdeps deps)) deps.

(** src/greedy/greedy_previous_param.py:120-125 *)
Fixpoint get_min_pos (fuel : nat) (o : string) (deps : list (string * string)) : result nat :=
  match fuel with
  | O => Raise OutOfFuel
  | S fuel' => for_each (fun m p => if snd p =? o then do n <- get_min_pos fuel' (fst p) deps; Ok (Nat.max m (n + 1)) else Ok m) deps 0
  end.
