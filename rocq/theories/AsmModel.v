(** Model of the translation of ids into assembly items:
    src/solution_generation/reconstruct_bytecode.py:22-82 and
    src/solution_generation/utils.py. *)
From Coq Require HexadecimalString.
From Verif Require Import Base Lexical SymExecModel.

(** An assembly item: the fields "name" and "value" of the JSON dictionary
    (the constant fields begin/end/source and jumpType are omitted). *)
Record asm := { a_name : string; a_value : option string }.

(** Python's [s.upper()] (ASCII letters only). *)
Definition upper_ascii (c : ascii) : ascii :=
  let n := nat_of_ascii c in
  if (97 <=? n) && (n <=? 122) then ascii_of_nat (n - 32) else c.
Fixpoint upper (s : string) : string :=
  match s with EmptyString => EmptyString | String c s' => String (upper_ascii c) (upper s') end.

(** [hex(z)[2:]]; for a negative number Python drops "-0" and keeps "x..". *)
Definition hex_drop2 (z : Z) : string :=
  match z with
  | Zneg p => ("x" ++ HexadecimalString.NilZero.string_of_uint (Pos.to_hex_uint p))%string
  | _ => HexadecimalString.NilZero.string_of_uint (N.to_hex_uint (Z.to_N z))
  end.

(** [str(z)] *)
Definition str_Z (z : Z) : string := DecimalString.NilZero.string_of_int (Z.to_int z).

(** src/solution_generation/utils.py:1-9 *)
Definition to_hex_default (v : pyval) : string :=
  match v with
  | PInt z => hex_drop2 z
  | PStr s => match py_int s with Some z => hex_drop2 z | None => s end
  end.

Definition str_pyval (v : pyval) : string :=
  match v with PInt z => str_Z z | PStr s => s end.

(** src/solution_generation/reconstruct_bytecode.py:22-36 *)
Definition asm_from_op_info (name : string) (value : option string) : asm :=
  {| a_name := name; a_value := option_map upper value |}.

(** [associated_instr['value'][0]] *)
Definition value0 (i : instr) : result pyval :=
  match i_value i with Some (v :: _) => Ok v | _ => Raise OtherError end.

Definition is_hex_push (d : string) : bool :=
  String.eqb d "PUSH" || String.eqb d "PUSH data"
  || String.eqb d "PUSHIMMUTABLE" || String.eqb d "ASSIGNIMMUTABLE".

(** src/solution_generation/reconstruct_bytecode.py:43-59 *)
Definition asm_of_instr (i : instr) : result asm :=
  if String.eqb (i_disasm i) "PUSH0" then Ok (asm_from_op_info "PUSH" (Some "0"%string))
  else if is_hex_push (i_disasm i) then
    do v <- value0 i; Ok (asm_from_op_info (i_disasm i) (Some (to_hex_default v)))
  else if String.eqb (i_disasm i) "PUSH [TAG]" then
    match i_outpt i with
    | o :: _ => do z <- of_option (py_int o); Ok (asm_from_op_info "PUSH [tag]" (Some (str_Z z)))
    | [] => Raise OtherError
    end
  else match i_value i with
       | None => Ok (asm_from_op_info (i_disasm i) None)
       | Some _ => do v <- value0 i; Ok (asm_from_op_info (i_disasm i) (Some (str_pyval v)))
       end.

(** [instr_id.split(' ')[1]] *)
Fixpoint until_space (s : string) : string :=
  match s with
  | EmptyString => EmptyString
  | String c s' => if Ascii.eqb c " "%char then EmptyString else String c (until_space s')
  end.
Fixpoint second_word (s : string) : option string :=
  match s with
  | EmptyString => None
  | String c s' => if Ascii.eqb c " "%char then Some (until_space s') else second_word s'
  end.

(** src/solution_generation/reconstruct_bytecode.py:81: the dictionary keeps
    the last instruction with a given id *)
Definition find_last_instr (id : string) (ui : list instr) : option instr :=
  find_instr id (rev ui).

(** src/solution_generation/reconstruct_bytecode.py:39-67 *)
Definition id_to_asm_bytecode (ui : list instr) (id : string) : result asm :=
  match find_last_instr id ui with
  | Some i => asm_of_instr i
  | None =>
      if contains "PUSH" id then
        do v <- of_option (second_word id); Ok (asm_from_op_info "PUSH" (Some v))
      else Ok (asm_from_op_info id None)
  end.

(** src/solution_generation/reconstruct_bytecode.py:70-82 *)
Definition asm_from_ids (ui : list instr) (ids : list string) : result (list asm) :=
  map_result (id_to_asm_bytecode ui)
    (filter (fun id => negb (String.eqb id "NOP")) ids).
