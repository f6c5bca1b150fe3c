(** How instruction identifiers are read: the purely textual part of
    src/analysis/symbolic_execution.py. *)
From Verif Require Import Base.

(** src/analysis/symbolic_execution.py:8-9.  The two regular
    expressions (VGET or VSET, an opening parenthesis, a greedy dot-star group,
    a closing parenthesis), used with [match]: after the prefix, the longest run of non-newline characters that is
    followed by a closing parenthesis; text after it is ignored. *)
Fixpoint before_last_paren (l : list ascii) : option (list ascii) :=
  match l with
  | [] => None
  | c :: l' =>
      if Ascii.eqb c "010"%char then None
      else match before_last_paren l' with
           | Some r => Some (c :: r)
           | None => if Ascii.eqb c ")"%char then Some [] else None
           end
  end.
Definition paren_arg (pfx s : string) : option string :=
  if prefix pfx s
  then option_map string_of_list_ascii
         (before_last_paren (list_ascii_of_string (sdrop (String.length pfx) s)))
  else None.
Definition vget_arg (s : string) : option string := paren_arg "VGET(" s.
Definition vset_arg (s : string) : option string := paren_arg "VSET(" s.

(** The spelling of the stack operations used by the synthesizer
    ('SWAP' + str(i), src/greedy/greedy_previous_param.py:1480 and others). *)
Definition swap_id (n : nat) : string := ("SWAP" ++ str_nat n)%string.
Definition dup_id (n : nat) : string := ("DUP" ++ str_nat n)%string.
Definition vget_id (x : string) : string := ("VGET(" ++ x ++ ")")%string.
Definition vset_id (x : string) : string := ("VSET(" ++ x ++ ")")%string.

(** Is the text one of the stack-manipulation operations the code recognises
    before looking at the block's own instructions
    (src/analysis/symbolic_execution.py:21-41)? *)
Definition is_stack_op (s : string) : bool :=
  String.eqb s "POP" || contains "SWAP" s || contains "DUP" s
  || match vget_arg s with Some _ => true | None => false end
  || match vset_arg s with Some _ => true | None => false end.
