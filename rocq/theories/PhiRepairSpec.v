(** Specification side of C46: which values the repair keeps in registers. *)
From Verif Require Import Base UtilModel PlaceModel PlaceSpec.
Open Scope string_scope. Open Scope list_scope.

(** Block [x] has the phi function [v := phi(args)]. *)
Definition phi_in (bs : pblocks) (x v : string) (args : list string) : Prop :=
  exists b, lookup x bs = Some b /\ lookup v (pb_phis b) = Some args.
(** The phi function [v] takes the value [a] when the control comes from [e]. *)
Definition phi_takes (bs : pblocks) (v a e : string) : Prop :=
  exists x b args k, lookup x bs = Some b /\ lookup v (pb_phis b) = Some args
    /\ nth_error args k = Some a /\ nth_error (pb_entries b) k = Some e.
Definition unreachable_in (bs : pblocks) (x v : string) : Prop := exists b, lookup x bs = Some b /\ In v (pb_unreach b).

(** The phi results that need a register: those asked for that cannot be reached
    in their own block, and the arguments of such phi functions that cannot be
    reached where the control comes from. *)
Inductive slotted (bs : pblocks) (to_fix : list string) : string -> Prop :=
| slotted_asked v x args : In v to_fix -> phi_in bs x v args -> unreachable_in bs x v -> slotted bs to_fix v
| slotted_arg v a e : slotted bs to_fix v -> phi_takes bs v a e -> unreachable_in bs e a -> slotted bs to_fix a.

(** The blocks are different and no variable is the result of two phi functions. *)
Definition single_phis (bs : pblocks) : Prop :=
  NoDup (map fst bs) /\ (forall x b, lookup x bs = Some b -> NoDup (map fst (pb_phis b)))
  /\ forall x y v args args', phi_in bs x v args -> phi_in bs y v args' -> x = y.
(** Nothing was repaired before. *)
Definition untouched (bs : pblocks) : Prop := forall x b, lookup x bs = Some b -> pb_copies b = [] /\ pb_solve b = [].

(** [b'] is [b] except for the notes of the repair. *)
Definition same_code (b b' : pblock) : Prop :=
  pb_name b' = pb_name b /\ pb_phis b' = pb_phis b /\ pb_entries b' = pb_entries b /\ pb_succs b' = pb_succs b /\ pb_src b' = pb_src b
  /\ pb_instrs b' = pb_instrs b /\ pb_call b' = pb_call b /\ pb_live_in b' = pb_live_in b /\ pb_declared b' = pb_declared b
  /\ pb_ids b' = pb_ids b /\ pb_reach b' = pb_reach b /\ pb_unreach b' = pb_unreach b.
