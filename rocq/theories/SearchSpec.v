(** What is asked of the specification given to the synthesizer (properties
    C54 and following): the operations of a block, as the parser writes them. *)
From Verif Require Import Base Lexical SymExecModel FootprintSpec SearchModel.
Open Scope string_scope. Open Scope list_scope.

(** A name that can be written in VGET(...) or VSET(...) and read back: it has
    no line break and does not look like a SWAP or a DUP. *)
Definition plain (x : string) : Prop :=
  vget_arg (vget_id x) = Some x /\ vset_arg (vset_id x) = Some x /\ vget_arg (vset_id x) = None
  /\ contains "SWAP" (vget_id x) = false /\ contains "DUP" (vget_id x) = false
  /\ contains "SWAP" (vset_id x) = false /\ contains "DUP" (vset_id x) = false.
Definition plainb (x : string) : bool :=
  match vget_arg (vget_id x) with Some y => String.eqb y x | None => false end
  && match vset_arg (vset_id x) with Some y => String.eqb y x | None => false end
  && match vget_arg (vset_id x) with Some _ => false | None => true end
  && negb (contains "SWAP" (vget_id x)) && negb (contains "DUP" (vget_id x))
  && negb (contains "SWAP" (vset_id x)) && negb (contains "DUP" (vset_id x)).
Lemma plainb_ok x : plainb x = true -> plain x.
Proof.
  unfold plainb, plain. rewrite !andb_true_iff, !negb_true_iff. intros ((((((A & B) & C) & D) & E) & F) & G).
  destruct (vget_arg (vget_id x)) as [y|]; [|discriminate]. apply String.eqb_eq in A. subst y.
  destruct (vset_arg (vset_id x)) as [y|]; [|discriminate]. apply String.eqb_eq in B. subst y.
  destruct (vget_arg (vset_id x)); [discriminate|]. auto 10.
Qed.

Record well_formed (ui : list instr) : Prop := {
  wf_ids : NoDup (map i_id ui);                                                 (* ids are different *)
  wf_outs : NoDup (outputs ui);                                                 (* values are computed by one operation *)
  wf_order : defs_before_uses ui = true;                                        (* from values computed before *)
  wf_names : forall i, In i ui -> is_stack_op (i_id i) = false;                 (* ids are not stack operations *)
  wf_comm : forall i, In i ui -> i_comm i = true -> length (i_inpt i) = 2%nat;   (* commutative: two operands *)
  wf_opcodes : forall i, In i ui -> i_disasm i <> "SWAP1" /\ i_disasm i <> "DUP1"; (* nor are their opcodes *)
  wf_vars : forall i x, In i ui -> In x (i_inpt i ++ i_outpt i) -> plain x /\ is_write x = false
}.
Definition well_formedb (ui : list instr) : bool :=
  ensure_ids_are_unique ui && ensure_stack_vars_are_unique ui && defs_before_uses ui
  && forallb (fun i => negb (is_stack_op (i_id i)) && (negb (i_comm i) || (length (i_inpt i) =? 2)%nat)
                       && negb (String.eqb (i_disasm i) "SWAP1") && negb (String.eqb (i_disasm i) "DUP1")
                       && forallb (fun x => plainb x && negb (is_write x)) (i_inpt i ++ i_outpt i)) ui.
