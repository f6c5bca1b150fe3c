(** Specification side: what assembly items mean on an EVM-like machine and
    what a block's instruction list means when executed in program order.
    Nothing here mentions the validator. *)
From Verif Require Import Base Lexical SymExecModel AsmModel.
From Coq Require HexadecimalString.

Section Machine.
(** Machine words, world locations (memory bytes, storage slots, logs, ...)
    and their contents. *)
Context {V Loc LV : Type}.
Definition world := Loc -> LV.

(** The meaning of the primitive operations, keyed by opcode name and
    optional immediate value. *)
Record semantics := {
  word_of_Z : Z -> V;             (* the word pushed for a constant *)
  tag_word : Z -> V;              (* the word pushed for a jump tag *)
  prim_arity : string -> option string -> nat;
  prim : string -> option string -> list V -> world -> list V * world
}.
Variable sem : semantics.

(** Numeric immediates of assembly items: PUSH in hexadecimal, tags in decimal. *)
Fixpoint lower_hex (s : string) : string :=
  match s with
  | EmptyString => EmptyString
  | String c s' =>
      let n := nat_of_ascii c in
      String (if (65 <=? n) && (n <=? 70) then ascii_of_nat (n + 32) else c) (lower_hex s')
  end.
Definition hex_value (s : string) : option Z :=
  option_map (fun u => Z.of_N (N.of_hex_uint u))
    (HexadecimalString.NilZero.uint_of_string (lower_hex s)).

(** Kinds of assembly items. *)
Inductive kind :=
| KPop | KSwap (n : Z) | KDup (n : Z) | KGet (x : string) | KSet (x : string)
| KConst (w : V) | KOp.

Definition kind_of (a : asm) : option kind :=
  let nm := a_name a in
  if String.eqb nm "POP" then Some KPop
  else if startswith "SWAP" nm then option_map KSwap (py_int (sdrop 4 nm))
  else if startswith "DUP" nm then option_map KDup (py_int (sdrop 3 nm))
  else match vget_arg nm, vset_arg nm with
  | Some x, _ => Some (KGet x)
  | _, Some x => Some (KSet x)
  | None, None =>
     if String.eqb nm "PUSH" then
       match a_value a with
       | Some h => option_map (fun z => KConst (word_of_Z sem z)) (hex_value h)
       | None => None
       end
     else if String.eqb nm "PUSH [tag]" then
       match a_value a with
       | Some t => option_map (fun z => KConst (tag_word sem z)) (py_int t)
       | None => None
       end
     else Some KOp
  end.

(** Machine state: word stack (top first), world, register file used by the
    pseudo-operations VGET/VSET. *)
Record mstate := { m_stack : list V; m_world : world; m_regs : string -> V }.

Definition upd_reg (r : string -> V) (x : string) (v : V) : string -> V :=
  fun y => if String.eqb y x then v else r y.

(** One step.  [None] = the machine is stuck (stack underflow, or a DUP/SWAP
    that does not exist on the EVM: only 1..16 do). *)
Definition mstep (a : asm) (m : mstate) : option mstate :=
  match kind_of a with
  | None => None
  | Some KPop =>
      match m_stack m with
      | _ :: st => Some {| m_stack := st; m_world := m_world m; m_regs := m_regs m |}
      | [] => None
      end
  | Some (KSwap n) =>
      if ((1 <=? n) && (n <=? 16))%Z then
        match m_stack m with
        | x :: st =>
            match nth_error st (Z.to_nat (n - 1)) with
            | Some y => Some {| m_stack := y :: set_nth (Z.to_nat (n - 1)) x st;
                                m_world := m_world m; m_regs := m_regs m |}
            | None => None
            end
        | [] => None
        end
      else None
  | Some (KDup n) =>
      if ((1 <=? n) && (n <=? 16))%Z then
        match nth_error (m_stack m) (Z.to_nat (n - 1)) with
        | Some y => Some {| m_stack := y :: m_stack m; m_world := m_world m; m_regs := m_regs m |}
        | None => None
        end
      else None
  | Some (KGet x) =>
      Some {| m_stack := m_regs m x :: m_stack m; m_world := m_world m; m_regs := m_regs m |}
  | Some (KSet x) =>
      match m_stack m with
      | v :: st => Some {| m_stack := st; m_world := m_world m; m_regs := upd_reg (m_regs m) x v |}
      | [] => None
      end
  | Some (KConst w) =>
      Some {| m_stack := w :: m_stack m; m_world := m_world m; m_regs := m_regs m |}
  | Some KOp =>
      let k := prim_arity sem (a_name a) (a_value a) in
      if k <=? length (m_stack m) then
        let (outs, w') := prim sem (a_name a) (a_value a) (firstn k (m_stack m)) (m_world m) in
        Some {| m_stack := outs ++ skipn k (m_stack m); m_world := w'; m_regs := m_regs m |}
      else None
  end.

Fixpoint mrun (code : list asm) (m : mstate) : option mstate :=
  match code with
  | [] => Some m
  | a :: code' => match mstep a m with Some m' => mrun code' m' | None => None end
  end.

(* ------------------------------------------------------------------ *)
(** Program order semantics of a block's operations: variables are bound in
    an environment. *)

(** The immediate carried by an operation, as the primitive sees it. *)
Definition imm (i : instr) : option string :=
  match i_value i with
  | Some (v :: _) =>
      Some (upper (if is_hex_push (i_disasm i) then to_hex_default v else str_pyval v))
  | _ => None
  end.

(** What one operation computes from its arguments. *)
Definition op_denote (i : instr) (args : list V) (w : world) : list V * world :=
  if String.eqb (i_disasm i) "PUSH0" then ([word_of_Z sem 0], w)
  else if String.eqb (i_disasm i) "PUSH" then
    match i_value i with
    | Some (PInt z :: _) => ([word_of_Z sem z], w)
    | _ => ([], w)
    end
  else if String.eqb (i_disasm i) "PUSH [TAG]" then
    match i_outpt i with
    | o :: _ => match py_int o with Some z => ([tag_word sem z], w) | None => ([], w) end
    | [] => ([], w)
    end
  else prim sem (i_disasm i) (imm i) args w.

Definition env := string -> V.
Fixpoint bind_vars (e : env) (xs : list string) (vs : list V) : env :=
  match xs, vs with
  | x :: xs', v :: vs' => fun y => if String.eqb y x then v else bind_vars e xs' vs' y
  | _, _ => e
  end.

Definition exec_op (i : instr) (ew : env * world) : env * world :=
  let (e, w) := ew in
  let (outs, w') := op_denote i (map e (i_inpt i)) w in
  (bind_vars e (i_outpt i) outs, w').

Definition exec_prog (p : list instr) (ew : env * world) : env * world :=
  fold_left (fun s i => exec_op i s) p ew.

End Machine.
Arguments semantics : clear implicits.
Arguments mstate : clear implicits.
