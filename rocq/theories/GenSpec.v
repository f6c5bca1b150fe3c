(** Specification side of C56: the block lists of a program, and loads and saves
    of values in registers. *)
From Verif Require Import Base Lexical SymExecModel TargetModel GenModel.
Open Scope string_scope. Open Scope list_scope.

(** The block lists of a program in the order of the text: of each object the
    main one, those of its functions, and those of its sub-object. *)
Fixpoint block_lists (c : gcfg) : list (list gblock) :=
  match c with
  | GCfg objects => flat_map (fun o => let '(_, ob, sub) := o in
      gb_main ob :: map snd (gb_functions ob) ++ match sub with Some c' => block_lists c' | None => [] end) objects
  end.
Definition blocks_of (c : gcfg) : list gblock := concat (block_lists c).

(** Does an id load or save a value? *)
Definition loads (id : string) : Prop := exists x, id = vget_id x.
Definition saves (id : string) : Prop := exists x, id = vset_id x.
(** How often [x] is loaded before it is saved. *)
Fixpoint loads_before_save (x : string) (ids : list string) : nat :=
  match ids with
  | [] => 0
  | id :: ids' => if String.eqb id (vset_id x) then 0
                  else (if String.eqb id (vget_id x) then 1 else 0) + loads_before_save x ids'
  end.
(** No operation of the block has a name that looks like a load or a save. *)
Definition no_register_names (sp : spec) : Prop :=
  forall i, In i (s_instrs (t_sfs sp)) -> startswith "VGET" (i_id i) = false /\ startswith "VSET" (i_id i) = false.
