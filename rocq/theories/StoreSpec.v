(** What is asked of a sequence of ids (property C55): the operations without a
    result are executed once each and in the order required. *)
From Verif Require Import Base SymExecModel.
Open Scope string_scope. Open Scope list_scope.

(** The id is that of an operation without a result: it is executed for its effect. *)
Definition store (ui : list instr) (id : string) : bool :=
  existsb (fun i => String.eqb (i_id i) id && match i_outpt i with [] => true | _ => false end) ui.
(** It appears exactly once. *)
Definition once (id : string) (ids : list string) : Prop :=
  exists before after, ids = before ++ id :: after /\ ~ In id (before ++ after).
(** The first appears before the second. *)
Definition precedes (a b : string) (ids : list string) : Prop :=
  exists before between after, ids = before ++ a :: between ++ b :: after.
