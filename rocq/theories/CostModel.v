(** Model of the estimation of gas and bytes of functions
    (src/cfg_methods/cost_computation.py) and of its use when functions are
    inlined (src/cfg_methods/function_inlining.py:81-132, 162-186). *)
From Verif Require Import Base UtilModel LiveModel CfgModel InlineModel JumpModel InlineDriverModel.
Open Scope string_scope. Open Scope list_scope.

(** The gas, [None] for [np.inf], and the bytes (cost_computation.py:15). *)
Definition cost : Type := option nat * nat.
Definition no_cost : cost := (Some 0, 0).
Definition add_cost (a b : cost) : cost :=
  (match fst a, fst b with Some x, Some y => Some (x + y) | _, _ => None end, snd a + snd b).
(** The dictionary [function2costs] and the set [traversed_functions], which the
    functions below modify. *)
Record cstate := { cs_costs : list (string * cost); cs_traversed : list string }.
Definition set_cost (f : string) (c : cost) (st : cstate) : cstate :=
  {| cs_costs := dict_set f c (cs_costs st); cs_traversed := cs_traversed st |}.

Section Costs.
(** src/parser/opcodes.py:258-311 (with default arguments): a table that never raises. *)
Variable ins_cost : string -> nat.

(** src/parser/cfg_instruction.py:408-424 *)
Definition op_cost (i : linstr) : cost :=
  if String.eqb (li_op i) "PhiFunction" || String.eqb (li_op i) "FunctionReturn" then (Some 0, 0) else (Some (ins_cost (li_op i)), 1).
(** src/cfg_methods/cost_computation.py:102-112, one argument; the list is the
    set [previously_introduced]. *)
Definition arg_cost (st : cost * list string) (x : string) : result (cost * list string) :=
  let '(c, intro) := st in
  if startswith "0x" x then
    if String.eqb x "0x00" then Ok (add_cost c (Some 2, 1), intro)
    else do n <- get_push_number_hex x; Ok (add_cost c (Some 3, 1 + n), intro)
  else if mem x intro then Ok (c, filter (fun y => negb (String.eqb y x)) intro)
  else Ok (add_cost c (Some 3, 1), intro).

Section Functions.
Variable functions : list (string * cfun).
(** src/cfg_methods/cost_computation.py:83-115, one instruction; [rec] is
    [compute_gas_bytes_function]. *)
Definition instr_cost (rec : string -> cstate -> result (cost * cstate)) (acc : cost * list string * cstate) (i : linstr) : result (cost * list string * cstate) :=
  let '(c, intro, st) := acc in
  do r <- match lookup (li_op i) (cs_costs st) with
          | Some k => Ok (k, st)
          | None => if mem (li_op i) (map fst functions) then rec (li_op i) st else Ok (op_cost i, st)
          end;
  do a <- for_each arg_cost (li_ins i) (add_cost c (fst r), intro);
  Ok (fst a, li_outs i ++ snd a, snd r).
(** src/cfg_methods/cost_computation.py:66-78, one block *)
Definition block_cost (rec : string -> cstate -> result (cost * cstate)) (acc : cost * list string * cstate) (kb : string * cblock) : result (cost * list string * cstate) :=
  let '(c, intro, st) := acc in
  do r <- for_each (instr_cost rec) (cb_instrs (snd kb)) (no_cost, intro, st);
  Ok (add_cost c (fst (fst r)), snd (fst r), snd r).
(** src/cfg_methods/cost_computation.py:40-63.  The depth of the recursion is
    bounded by [fuel]: the number of functions is enough ([cost_ends]). *)
Fixpoint function_cost (fuel : nat) (f : string) (st : cstate) : result (cost * cstate) :=
  match lookup f (cs_costs st) with
  | Some c => Ok (c, st)
  | None =>
      if mem f (cs_traversed st) then Ok ((None, 1), set_cost f (None, 1) st)
      else match fuel with
           | O => Raise OutOfFuel
           | S n =>
               do k <- of_option (lookup f functions);
               do r <- for_each (block_cost (function_cost n)) (cl_blocks (fn_blocks k))
                         (no_cost, fn_args k, {| cs_costs := cs_costs st; cs_traversed := f :: cs_traversed st |});
               let c := fst (fst r) in
               Ok (c, set_cost f c (snd r))
           end
  end.
(** A call with [set()] (function_inlining.py:93). *)
Definition estimate (f : string) (costs : list (string * cost)) : result (cost * list (string * cost)) :=
  do r <- function_cost (length functions) f {| cs_costs := costs; cs_traversed := [] |};
  Ok (fst r, cs_costs (snd r)).
(** src/cfg_methods/cost_computation.py:26-31, the loop for one object. *)
Definition object_costs : result (list (string * cost)) :=
  for_each (fun costs f => do r <- estimate f costs; Ok (snd r)) (map fst functions) [].
End Functions.

(** src/cfg_methods/function_inlining.py:162-186: the numbers of lines 174-181 are
    computed and not used. *)
Definition must_be_inlined (f : string) (ncalls : nat) (costs : list (string * cost)) : result bool :=
  do c <- of_option (lookup f costs);
  match fst c with None => Ok false | Some _ => Ok (Nat.eqb ncalls 1) end.
(** src/cfg_methods/function_inlining.py:96-97 *)
Definition chosen (f : string) (ncalls : nat) (costs : list (string * cost)) : result bool :=
  if Nat.eqb ncalls 1 then Ok true else must_be_inlined f ncalls costs.
(** src/cfg_methods/function_inlining.py:81-132 with the costs: those of the
    current function are computed, it is chosen or not, and inlined if chosen
    ([inline_next]). *)
Definition costed_next (info : list (string * site)) (st : cobject * pieces_dict * list (string * cost)) (f : string) : result (cobject * pieces_dict * list (string * cost)) :=
  let '(ob, cur, costs) := st in
  do _ <- of_option (lookup f (ob_functions ob));
  do e <- estimate (ob_functions ob) f costs;
  do yes <- chosen f (length (calls_of info f)) (snd e);
  if yes then do r <- inline_next info (ob, cur) f; Ok (r, snd e) else Ok (ob, cur, snd e).
Definition costed_inlining (order : list string) (ob : cobject) : result cobject :=
  do st <- for_each (costed_next (function_calls ob)) order (ob, [], []);
  Ok (fst (fst st)).
End Costs.
