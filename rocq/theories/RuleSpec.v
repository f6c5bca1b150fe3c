(** Values of EVM arithmetic instructions on 256-bit words (Yellow Paper,
    appendix H.2). *)
From Verif Require Import Base Lexical DepsModel SymExecModel RuleModel.
Open Scope string_scope. Open Scope list_scope. Open Scope Z_scope.

Definition word (z : Z) : Prop := 0 <= z < 2 ^ 256.
Definition signed (z : Z) : Z := if z <? 2 ^ 255 then z else z - 2 ^ 256.
Definition bool_word (b : bool) : Z := if b then 1 else 0.
Definition evm (op : string) (args : list Z) : option Z :=
  match args with
  | [a; b] =>
      if (op =? "and")%string then Some (Z.land a b)
      else if (op =? "or")%string then Some (Z.lor a b)
      else if (op =? "xor")%string then Some (Z.lxor a b)
      else if (op =? "add")%string then Some ((a + b) mod 2 ^ 256)
      else if (op =? "sub")%string then Some ((a - b) mod 2 ^ 256)
      else if (op =? "mul")%string then Some ((a * b) mod 2 ^ 256)
      else if (op =? "div")%string then Some (if b =? 0 then 0 else a / b)
      else if (op =? "sdiv")%string then Some (if b =? 0 then 0 else Z.quot (signed a) (signed b) mod 2 ^ 256)
      else if (op =? "mod")%string then Some (if b =? 0 then 0 else a mod b)
      else if (op =? "exp")%string then Some (a ^ b mod 2 ^ 256)
      else if (op =? "eq")%string then Some (bool_word (a =? b))
      else if (op =? "gt")%string then Some (bool_word (b <? a))
      else if (op =? "lt")%string then Some (bool_word (a <? b))
      else if (op =? "sgt")%string then Some (bool_word (signed b <? signed a))
      else if (op =? "slt")%string then Some (bool_word (signed a <? signed b))
      else if (op =? "shl")%string then Some ((b * 2 ^ a) mod 2 ^ 256)
      else if (op =? "shr")%string then Some (b / 2 ^ a)
      else None
  | [a] =>
      if (op =? "iszero")%string then Some (bool_word (a =? 0))
      else if (op =? "not")%string then Some (2 ^ 256 - 1 - a)
      else None
  | _ => None
  end.

(** The value of an operand: a literal in hexadecimal, an integer, or a variable. *)
Definition operand (env : string -> Z) (v : pyval) : Z :=
  match v with
  | PInt z => z
  | PStr s => if startswith "0x" s then match py_int16 s with Some z => z | None => 0 end else env s
  end.
Fixpoint rvalue (env : string -> Z) (e : rexpr) : option Z :=
  match e with
  | RVar x => Some (env x)
  | RConst z => Some z
  | ROp op args =>
      match (fix go (l : list rexpr) : option (list Z) :=
        match l with
        | [] => Some []
        | e' :: l' => match rvalue env e', go l' with Some v, Some vs => Some (v :: vs) | _, _ => None end
        end) args with
      | Some vs => evm op vs
      | None => None
      end
  end.
