(** Algebraic simplification rules: src/cfg_methods/rule_simplification.py.  The
    file is not imported by the compiler and does not parse as Python (lines
    894-902); [apply_transform] and the pairs of expressions of
    [apply_semantics_transformation] are modelled as written. *)
From Verif Require Import Base Lexical SymExecModel AsmModel DepsModel.
Open Scope string_scope. Open Scope list_scope.

(** Python's [==] and [in] between strings and integers. *)
Definition pyval_eqb (a b : pyval) : bool :=
  match a, b with
  | PInt x, PInt y => Z.eqb x y
  | PStr x, PStr y => String.eqb x y
  | _, _ => false
  end.
Definition is_int (z : Z) (v : pyval) : bool := pyval_eqb v (PInt z).
Definition py_in (z : Z) (l : list pyval) : bool := existsb (is_int z) l.

(** src/cfg_methods/rule_simplification.py:118-133.  The value computed is not
    the one returned; reading a literal can raise. *)
Definition get_input_assigment (inp : string) (assigments : list (string * string)) : result pyval :=
  match py_int16 inp with
  | Some _ => Ok (PStr inp)
  | None =>
      match find (fun p => String.eqb (fst p) inp) assigments with
      | Some (_, a) => do _ <- of_option (py_int16 a); Ok (PStr inp)
      | None => Ok (PStr inp)
      end
  end.
(** src/cfg_methods/rule_simplification.py:135-141 *)
Definition get_input_values (inp_vars : list string) (assigments : list (string * string)) : result (list pyval) :=
  map_result (fun inp => get_input_assigment inp assigments) inp_vars.

Definition all_ones : Z := (2 ^ 256 - 1)%Z.
(** src/cfg_methods/rule_simplification.py:152-391: the new value
    of the result, [None] for -1.  [not] uses an undefined function; an opcode
    without a case returns Python's [None], here an exception.  Simplification:
    -1 is not distinguished from an operand equal to the number -1 (operands are
    non-negative); the list of applied rules is not kept. *)
Definition apply_transform_values (opcode : string) (inp : list pyval) : result (option pyval) :=
  match inp with
  | [a; b] =>
      if opcode =? "and" then
        if py_in 0 inp then Ok (Some (PStr "0x00"))
        else if pyval_eqb a b then Ok (Some a)
        else if is_int all_ones a || is_int all_ones b then Ok (Some (if is_int all_ones a then b else a))
        else Ok None
      else if opcode =? "or" then
        if py_in 0 inp then Ok (Some (if is_int 0 a then b else a))
        else if pyval_eqb a b then Ok (Some a)
        else Ok None
      else if opcode =? "xor" then
        if pyval_eqb a b then Ok (Some (PStr "0x00"))
        else if py_in 0 inp then Ok (Some (if is_int 0 a then b else a))
        else Ok None
      else if opcode =? "exp" then
        if is_int 0 b then Ok (Some (PStr "0x01"))
        else if is_int 1 b then Ok (Some a)
        else if is_int 1 a then Ok (Some (PStr "0x01"))
        else Ok None
      else if opcode =? "add" then
        if py_in 0 inp then Ok (Some (if is_int 0 a then b else a)) else Ok None
      else if opcode =? "sub" then
        if is_int 0 b then Ok (Some a)
        else if pyval_eqb a b then Ok (Some (PStr "0x00"))
        else Ok None
      else if opcode =? "mul" then
        if py_in 0 inp then Ok (Some (PStr "0x00"))
        else if py_in 1 inp then Ok (Some (if is_int 1 a then b else a))
        else Ok None
      else if (opcode =? "div") || (opcode =? "sdiv") then
        if is_int 1 b then Ok (Some a)
        else if py_in 0 inp then Ok (Some (PStr "0x00"))
        else if pyval_eqb a b then Ok (Some (PStr "0x01"))
        else Ok None
      else if opcode =? "mod" then
        if is_int 1 b then Ok (Some (PStr "0x00"))
        else if pyval_eqb a b then Ok (Some (PStr "0x00"))
        else if is_int 0 b then Ok (Some (PStr "0x00"))
        else Ok None
      else if opcode =? "eq" then
        if pyval_eqb a b then Ok (Some (PStr "0x01")) else Ok None
      else if (opcode =? "gt") || (opcode =? "sgt") then
        if is_int 0 a && (opcode =? "GT") then Ok (Some (PStr "0x00"))
        else if pyval_eqb a b then Ok (Some (PStr "0x00"))
        else Ok None
      else if (opcode =? "lt") || (opcode =? "slt") then
        if is_int 0 b && (opcode =? "LT") then Ok (Some (PStr "0x00"))
        else if pyval_eqb a b then Ok (Some (PStr "0x00"))
        else Ok None
      else if (opcode =? "shr") || (opcode =? "shl") then
        if is_int 0 a then Ok (Some a)
        else if is_int 0 b then Ok (Some a)
        else Ok None
      else Raise OtherError
  | [a] =>
      if opcode =? "iszero" then
        if is_int 0 a then Ok (Some (PStr "0x01"))
        else if is_int 1 a then Ok (Some (PStr "0x00"))
        else Ok None
      else Raise OtherError
  | _ => Raise OtherError
  end.
(** src/cfg_methods/rule_simplification.py:144-391 *)
Definition apply_transform (opcode : string) (in_args : list string) (assigments : list (string * string)) : result (option pyval) :=
  do inp <- get_input_values in_args assigments; apply_transform_values opcode inp.

(** The rewritings of pairs and triples of instructions
    (src/cfg_methods/rule_simplification.py:422-1317): the expression computed
    before and the one computed after, with their lines.  The conditions on the
    uses of the intermediate results are not modelled.  [X], [Y], [Z] are any
    values, [A] is an address (the result of origin, coinbase, caller or
    address). *)
Inductive rexpr := RVar (x : string) | RConst (z : Z) | ROp (op : string) (args : list rexpr).
Definition rX := RVar "X". Definition rY := RVar "Y". Definition rZ := RVar "Z". Definition rA := RVar "A".
Definition isz (e : rexpr) := ROp "iszero" [e].
Definition op2 (op : string) (a b : rexpr) := ROp op [a; b].
Definition semantic_rules : list (string * rexpr * rexpr) :=
  [ ("ISZ(GT(X,0))", isz (op2 "gt" rX (RConst 0)), isz rX)                                  (* 429-443 *)
  ; ("ISZ(ISZ(GT(X,Y)))", isz (isz (op2 "gt" rX rY)), op2 "gt" rX rY)                       (* 455-477 *)
  ; ("ISZ(ISZ(SGT(X,Y)))", isz (isz (op2 "sgt" rX rY)), op2 "sgt" rX rY)
  ; ("ISZ(ISZ(ISZ(X)))", isz (isz (isz rX)), isz rX)                                        (* 479-507 *)
  ; ("EQ(1,ISZ(X))", op2 "eq" (RConst 1) (isz rX), isz rX)                                  (* 509-527 *)
  ; ("EQ(ISZ(X),1)", op2 "eq" (isz rX) (RConst 1), isz rX)
  ; ("ISZ(LT(0,X))", isz (op2 "lt" (RConst 0) rX), isz rX)                                  (* 532-546 *)
  ; ("LT(X,1)", op2 "lt" rX (RConst 1), isz rX)                                             (* 548-570 *)
  ; ("ISZ(ISZ(LT(X,Y)))", isz (isz (op2 "lt" rX rY)), op2 "lt" rX rY)                       (* 572-593 *)
  ; ("ISZ(ISZ(SLT(X,Y)))", isz (isz (op2 "slt" rX rY)), op2 "slt" rX rY)
  ; ("EQ(0,X)", op2 "eq" (RConst 0) rX, isz rX)                                             (* 595-621 *)
  ; ("EQ(X,0)", op2 "eq" rX (RConst 0), isz rX)
  ; ("ISZ(ISZ(EQ(X,Y)))", isz (isz (op2 "eq" rX rY)), op2 "eq" rX rY)                       (* 623-648 *)
  ; ("AND(X,AND(X,Y))", op2 "and" rX (op2 "and" rX rY), op2 "and" rX rY)                    (* 650-673 *)
  ; ("AND(AND(X,Y),Y)", op2 "and" (op2 "and" rX rY) rY, op2 "and" rX rY)
  ; ("AND(Y,AND(X,Y))", op2 "and" rY (op2 "and" rX rY), op2 "and" rX rY)
  ; ("AND(AND(X,Y),X)", op2 "and" (op2 "and" rX rY) rX, op2 "and" rX rY)
  ; ("OR(X,AND(X,Y))", op2 "or" rX (op2 "and" rX rY), rX)                                   (* 674-715 *)
  ; ("OR(Y,AND(X,Y))", op2 "or" rY (op2 "and" rX rY), rY)
  ; ("OR(AND(X,Y),X)", op2 "or" (op2 "and" rX rY) rX, rX)
  ; ("OR(AND(X,Y),Y)", op2 "or" (op2 "and" rX rY) rY, rY)
  ; ("OR(X,OR(X,Y))", op2 "or" rX (op2 "or" rX rY), op2 "or" rX rY)                         (* 720-738 *)
  ; ("OR(Y,OR(X,Y))", op2 "or" rY (op2 "or" rX rY), op2 "or" rX rY)
  ; ("OR(OR(X,Y),X)", op2 "or" (op2 "or" rX rY) rX, op2 "or" rX rY)
  ; ("OR(OR(X,Y),Y)", op2 "or" (op2 "or" rX rY) rY, op2 "or" rX rY)
  ; ("AND(X,OR(X,Y))", op2 "and" rX (op2 "or" rX rY), rX)                                   (* 739-778 *)
  ; ("AND(Y,OR(X,Y))", op2 "and" rY (op2 "or" rX rY), rY)
  ; ("AND(OR(X,Y),X)", op2 "and" (op2 "or" rX rY) rX, rX)
  ; ("AND(OR(X,Y),Y)", op2 "and" (op2 "or" rX rY) rY, rY)
  ; ("XOR(X,XOR(X,Y))", op2 "xor" rX (op2 "xor" rX rY), rY)                                 (* 784-829 *)
  ; ("XOR(Y,XOR(X,Y))", op2 "xor" rY (op2 "xor" rX rY), rX)
  ; ("XOR(XOR(X,Y),X)", op2 "xor" (op2 "xor" rX rY) rX, rY)
  ; ("XOR(XOR(X,Y),Y)", op2 "xor" (op2 "xor" rX rY) rY, rX)
  ; ("ISZ(XOR(X,Y))", isz (op2 "xor" rX rY), op2 "eq" rX rY)                                (* 831-864 *)
  ; ("NOT(NOT(X))", ROp "not" [ROp "not" [rX]], rX)                                         (* 870-899 *)
  ; ("AND(X,NOT(X))", op2 "and" rX (ROp "not" [rX]), RConst 0)                              (* 900-927 *)
  ; ("AND(NOT(X),X)", op2 "and" (ROp "not" [rX]) rX, RConst 0)
  ; ("OR(X,NOT(X))", op2 "or" rX (ROp "not" [rX]), RConst (2 ^ 256 - 1))                    (* 929-953 *)
  ; ("OR(NOT(X),X)", op2 "or" (ROp "not" [rX]) rX, RConst (2 ^ 256 - 1))
  ; ("AND(ORIGIN,2^160-1)", op2 "and" rA (RConst (2 ^ 160 - 1)), rA)                        (* 959-981, 1230-1245 *)
  ; ("AND(2^160-1,ORIGIN)", op2 "and" (RConst (2 ^ 160 - 1)) rA, rA)
  ; ("ISZ(SUB(X,Y))", isz (op2 "sub" rX rY), op2 "eq" rX rY)                                (* 983-1023 *)
  ; ("MUL(X,SHL(Y,1))", op2 "mul" rX (op2 "shl" rY (RConst 1)), op2 "shl" rY rX)            (* 1033-1063 *)
  ; ("MUL(SHL(X,1),Y)", op2 "mul" (op2 "shl" rX (RConst 1)) rY, op2 "shl" rX rY)            (* 1065-1094 *)
  ; ("DIV(X,SHL(Y,1))", op2 "div" rX (op2 "shl" rY (RConst 1)), op2 "shr" rY rX)            (* 1099-1130 *)
  ; ("AND(SHL(X,Y),SHL(X,Z))", op2 "and" (op2 "shl" rX rY) (op2 "shl" rX rZ), op2 "shl" rX (op2 "and" rY rZ)) (* 1132-1189 *)
  ; ("EXP(0,X)", op2 "exp" (RConst 0) rX, isz rX)                                           (* 1249-1279 *)
  ; ("EXP(2,X)", op2 "exp" (RConst 2) rX, op2 "shl" rX (RConst 1)) ].                       (* 1281-1311 *)
(** src/cfg_methods/rule_simplification.py:445-452 (the message says GT(1,X)) *)
Definition gt_rule : rexpr * rexpr := (op2 "gt" (RConst 0) rX, isz rX).
