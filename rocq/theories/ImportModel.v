(** Model of the translation of the opcodes printed by the Solidity compiler
    into assembly: src/solution_generation/bytecode2asm.py. *)
From Verif Require Import Base Lexical SymExecModel AsmModel.
From Verif Require MachineSpec.
Open Scope string_scope. Open Scope list_scope. Open Scope Z_scope.

(** Python's [int(s, 16)], with or without "0x".  Simplification: white space,
    signs and underscores are refused. *)
Definition py_int16 (s : string) : option Z :=
  MachineSpec.hex_value (if startswith "0x" s || startswith "0X" s then sdrop 2 s else s).

(** src/solution_generation/bytecode2asm.py:8-19; the values are not negative. *)
Definition build_assembly_instruction (name : string) (value : option Z) : asm :=
  {| a_name := name; a_value := option_map (fun v => if String.eqb name "PUSH" then hex_drop2 v else str_Z v) value |}.

(** src/solution_generation/bytecode2asm.py:30, 48: a push with an operand. *)
Definition takes_operand (op : string) : bool := startswith "PUSH" op && negb (String.eqb op "PUSH0").

(** The dictionary [byte2jumpdest]; a later assignment replaces an earlier one. *)
Definition dests := list (Z * Z).
Fixpoint dest_get (d : dests) (pc : Z) : option Z :=
  match d with
  | [] => None
  | (p, t) :: d' => match dest_get d' pc with Some t' => Some t' | None => if p =? pc then Some t else None end
  end.

(** src/solution_generation/bytecode2asm.py:23-39: the first pass.  A push at the
    end of the list moves the index beyond the end. *)
Fixpoint first_pass (opcodes : list string) (pc tag_number : Z) (d : dests) : result dests :=
  match opcodes with
  | [] => Ok d
  | op :: rest =>
      if takes_operand op then
        do n <- of_option (py_int (sdrop 4 op));
        match rest with
        | [] => Ok d
        | _ :: rest' => first_pass rest' (pc + n + 1) tag_number d
        end
      else if startswith "JUMPDEST" op then first_pass rest (pc + 1) (tag_number + 1) (d ++ [(pc, tag_number)])
      else first_pass rest (pc + 1) tag_number d
  end.
(** src/solution_generation/bytecode2asm.py:41-64: the second pass. *)
Fixpoint second_pass (d : dests) (opcodes : list string) (pc : Z) (operations : list asm) : result (list asm) :=
  match opcodes with
  | [] => Ok operations
  | op :: rest =>
      if takes_operand op then
        do n <- of_option (py_int (sdrop 4 op));
        match rest with
        | [] => Raise OtherError
        | v :: rest' =>
            do value <- of_option (py_int16 v);
            let item := match dest_get d value with
                        | Some t => build_assembly_instruction "PUSH [tag]" (Some t)
                        | None => build_assembly_instruction "PUSH" (Some value)
                        end in
            second_pass d rest' (pc + n + 1) (operations ++ [item])
        end
      else if startswith "JUMPDEST" op then
        do t <- of_option (dest_get d pc);
        second_pass d rest (pc + 1) (operations ++ [build_assembly_instruction "tag" (Some t); build_assembly_instruction "JUMPDEST" None])
      else second_pass d rest (pc + 1) (operations ++ [build_assembly_instruction op None])
  end.
(** src/solution_generation/bytecode2asm.py:22-68 (writing the file
    "operations.json" is left out) *)
Definition bytecode2asm (opcodes : list string) : result (list asm) :=
  do d <- first_pass opcodes 0 0 [];
  second_pass d opcodes 0 [].

(** Python's [s.split(sub)]: occurrences are taken from the left and do not
    overlap; [skip] characters of an occurrence are still to be dropped. *)
Fixpoint split_go (sub : string) (skip : nat) (s : string) : string * list string :=
  match s with
  | EmptyString => (""%string, [])
  | String c s' =>
      match skip with
      | S k => split_go sub k s'
      | O => if prefix sub s then let '(a, l) := split_go sub (String.length sub - 1) s' in (""%string, a :: l)
             else let '(a, l) := split_go sub 0 s' in (String c a, l)
      end
  end.
Definition py_split (sub s : string) : list string := let '(a, l) := split_go sub 0 s in a :: l.
(** [chunk.strip()] *)
Definition py_strip (s : string) : string := string_of_list_ascii (strip (list_ascii_of_string s)).
(** src/solution_generation/bytecode2asm.py:74-75 *)
Definition regions (opcodes : string) : list (list string) :=
  map (fun chunk => py_split " " (py_strip chunk)) (py_split "INVALID" opcodes).
(** src/solution_generation/bytecode2asm.py:71-88: the fields ".code" and
    ".data" "0" ".code" of the result. *)
Definition asm_from_opcodes (opcodes : string) : result (list asm * list asm) :=
  let rs := regions opcodes in
  do _ <- py_assert ((length rs =? 2)%nat || (length rs =? 3)%nat);
  do init_code <- bytecode2asm (nth 0 rs []);
  do deployed <- bytecode2asm (nth 1 rs []);
  Ok (init_code, deployed).
