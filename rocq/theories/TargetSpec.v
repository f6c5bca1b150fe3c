(** What is asked of the specification of a block given to the synthesizer
    (property C55). *)
From Verif Require Import Base SymExecModel SearchModel SearchSpec StoreSpec TargetModel.
Open Scope string_scope. Open Scope list_scope.

Definition ops_of (sp : TargetModel.spec) : list instr := s_instrs (t_sfs sp).
(** A dependency is between operations of the block. *)
Definition between (ui : list instr) (deps : list (string * string)) : Prop :=
  forall a b, In (a, b) deps -> In a (map i_id ui) /\ In b (map i_id ui).
Record well_given (sp : TargetModel.spec) : Prop := {
  wg_ops : well_formed (ops_of sp);
  (* an operation without a result is one of those that write, and its id begins with the opcode *)
  wg_effects : forall i, In i (ops_of sp) -> i_outpt i = [] -> In (i_disasm i) write_operations /\ is_write (i_id i) = true;
  wg_ids : forall i, In i (ops_of sp) -> plain (i_id i);
  wg_stacks : forall x, In x (s_src (t_sfs sp) ++ s_tgt (t_sfs sp)) -> plain x /\ is_write x = false;
  wg_mem : between (ops_of sp) (t_mem sp);
  wg_sto : between (ops_of sp) (t_sto sp);
  wg_trans : between (ops_of sp) (t_trans sp)
}.
Definition betweenb (ui : list instr) (deps : list (string * string)) : bool :=
  forallb (fun p => mem (fst p) (map i_id ui) && mem (snd p) (map i_id ui)) deps.
Definition well_givenb (sp : TargetModel.spec) : bool :=
  well_formedb (ops_of sp)
  && forallb (fun i => match i_outpt i with [] => mem (i_disasm i) write_operations && is_write (i_id i) | _ => true end) (ops_of sp)
  && forallb (fun i => plainb (i_id i)) (ops_of sp)
  && forallb (fun x => plainb x && negb (is_write x)) (s_src (t_sfs sp) ++ s_tgt (t_sfs sp))
  && betweenb (ops_of sp) (t_mem sp) && betweenb (ops_of sp) (t_sto sp) && betweenb (ops_of sp) (t_trans sp).
