(** What the gas and the bytes of a function without recursion are: the sum over
    its instructions, where a call counts as the function called, and constants
    and values needed once more count for themselves. *)
From Verif Require Import Base UtilModel LiveModel CfgModel InlineModel JumpModel CostModel.
From Verif Require DepsModel.
Open Scope string_scope. Open Scope list_scope.

(** The arguments that have to be pushed or duplicated, and the values at hand
    afterwards: constants always, other values if they are not at hand.  A value
    at hand is used up. *)
Fixpoint needed (have : list string) (args : list string) : list string * list string :=
  match args with
  | [] => ([], have)
  | x :: args' =>
      if prefix "0x" x then let r := needed have args' in (x :: fst r, snd r)
      else if in_dec string_dec x have then needed (remove string_dec x have) args'
      else let r := needed have args' in (x :: fst r, snd r)
  end.
(** [n] bytes, at least one, are enough for [z], and fewer are not. *)
Definition bytes_of (z : Z) (n : nat) : Prop := 1 <= n /\ (z < 256 ^ Z.of_nat n)%Z /\ forall m, 1 <= m -> (z < 256 ^ Z.of_nat m)%Z -> n <= m.
(** PUSH0, PUSHn and DUPn. *)
Definition price (x : string) (c : cost) : Prop :=
  (x = "0x00" /\ c = (Some 2, 1))
  \/ (x <> "0x00" /\ prefix "0x" x = true /\ exists z n, DepsModel.py_int16 x = Some z /\ bytes_of z n /\ c = (Some 3, 1 + n))
  \/ (prefix "0x" x = false /\ c = (Some 3, 1)).
Definition total (l : list cost) : cost := fold_right add_cost (Some 0, 0) l.
Definition own_price (ins_cost : string -> nat) (op : string) : cost :=
  if in_dec string_dec op ["PhiFunction"; "FunctionReturn"] then (Some 0, 0) else (Some (ins_cost op), 1).

Section Functions.
Variables (ins_cost : string -> nat) (functions : list (string * cfun)).
Definition code_of (k : cfun) : list linstr := flat_map (fun kb => cb_instrs (snd kb)) (cl_blocks (fn_blocks k)).
(** A call of [f] costs [c]; a piece of code costs [c] with the values [have] at hand. *)
Inductive spends : string -> cost -> Prop :=
| spends_function f k c : UtilModel.lookup f functions = Some k -> spends_code (fn_args k) (code_of k) c -> spends f c
with spends_code : list string -> list linstr -> cost -> Prop :=
| spends_nothing have : spends_code have [] (Some 0, 0)
| spends_call have i l d ps c : In (li_op i) (map fst functions) -> spends (li_op i) d ->
    Forall2 price (fst (needed have (li_ins i))) ps -> spends_code (li_outs i ++ snd (needed have (li_ins i))) l c ->
    spends_code have (i :: l) (add_cost d (add_cost (total ps) c))
| spends_operation have i l ps c : ~ In (li_op i) (map fst functions) ->
    Forall2 price (fst (needed have (li_ins i))) ps -> spends_code (li_outs i ++ snd (needed have (li_ins i))) l c ->
    spends_code have (i :: l) (add_cost (own_price ins_cost (li_op i)) (add_cost (total ps) c)).
End Functions.
Scheme spends_mut := Induction for spends Sort Prop with spends_code_mut := Induction for spends_code Sort Prop.
