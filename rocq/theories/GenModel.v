(** The driver that runs the synthesizer on every block of a program and
    decides what has to be repaired: src/greedy/ids_from_spec.py and
    src/execution/main_execution.py:73-84. *)
From Verif Require Import Base Lexical SymExecModel TargetModel.
From Verif Require PlaceModel.
Import PlaceModel (counter, cget, cinc, cplus, initial_get_count).
Open Scope string_scope. Open Scope list_scope.

(** A block with its specification and the field "admits_junk" of it
    (src/parser/cfg_block.py, "spec"). *)
Record gblock := { gb_name : string; gb_spec : spec; gb_junk : bool }.
(** What is stored in a block: the ids and, of its GreedyInfo, the loads to fix
    and whether there are loads (src/greedy/greedy_info.py:20-34). *)
Record gresult := { gr_name : string; gr_ids : list string; gr_count : counter; gr_vget : bool }.
(** What is stored in a block list (src/parser/cfg_block_list.py:36-37). *)
Record greport := { ge_blocks : list gresult; ge_repair : bool; ge_fix : counter }.

(** src/greedy/greedy_previous_param.py:1980-1998: an assertion that fails
    inside the [try] of [greedy_from_json] gives [None], any other exception gives
    no ids at all.  [OutOfFuel] stands for a run that does not end. *)
Definition greedy_standalone (fuel reach : nat) (junk : bool) (sp : spec) : result (option (list string)) :=
  match greedy_from_json fuel reach 2 junk sp with
  | Ok r => Ok (option_map (map snd) r)
  | Raise OutOfFuel => Raise OutOfFuel
  | Raise _ => Ok (Some [])
  end.
(** src/greedy/greedy_info.py:61-63 *)
Definition has_vget (ids : list string) : bool := existsb (startswith "VGET") ids.
(** src/greedy/ids_from_spec.py:29-54 and greedy_info.py:20-34; the reach is
    MAX_STACK_DEPTH (src/global_params/constants.py:1).  [check_execution_from_ids]
    iterates over the ids: a TypeError if they are [None]. *)
Definition block_ids (fuel : nat) (b : gblock) : result gresult :=
  do r <- greedy_standalone fuel 16 (gb_junk b) (gb_spec b);
  let ids := match r with Some l => l | None => [] end in
  do checked <- of_option r;
  do ok <- check_execution_from_ids (t_sfs (gb_spec b)) checked (gb_junk b);
  do _ <- py_assert ok;
  Ok {| gr_name := gb_name b; gr_ids := ids; gr_count := fst (initial_get_count ids); gr_vget := has_vget ids |}.
(** src/greedy/ids_from_spec.py:57-73 (the statistics are left out) *)
Definition blocklist_ids (fuel : nat) (bs : list gblock) : result greport :=
  for_each (fun rep b =>
    do r <- block_ids fuel b;
    Ok {| ge_blocks := ge_blocks rep ++ [r]; ge_fix := cplus (ge_fix rep) (gr_count r); ge_repair := ge_repair rep || gr_vget r |})
    bs {| ge_blocks := []; ge_repair := false; ge_fix := [] |}.
(** An object: its main block list and those of its functions
    (src/parser/cfg_object.py). *)
Record gobject := { gb_main : list gblock; gb_functions : list (string * list gblock) }.
(** A program: its objects, each with its sub-object (src/parser/cfg.py). *)
Inductive gcfg := GCfg (objects : list (string * gobject * option gcfg)).
(** src/greedy/ids_from_spec.py:78-87 *)
Definition object_ids (fuel : nat) (o : gobject) : result (bool * list greport) :=
  do m <- blocklist_ids fuel (gb_main o);
  for_each (fun acc f =>
    do r <- blocklist_ids fuel (snd f);
    Ok (fst acc || ge_repair r, snd acc ++ [r])) (gb_functions o) (ge_repair m, [m]).
(** src/greedy/ids_from_spec.py:90-104 *)
Fixpoint cfg_ids (fuel : nat) (c : gcfg) : result (bool * list greport) :=
  match c with
  | GCfg objects =>
      (fix go (os : list (string * gobject * option gcfg)) (acc : bool * list greport) : result (bool * list greport) :=
        match os with
        | [] => Ok acc
        | (_, o, sub) :: os' =>
            do r <- object_ids fuel o;
            let acc1 := (fst acc || fst r, snd acc ++ snd r) in
            match sub with
            | None => go os' acc1
            | Some c' => do r' <- cfg_ids fuel c'; go os' (fst acc1 || fst r', snd acc1 ++ snd r')
            end
        end) objects (false, [])
  end.
(** src/execution/main_execution.py:73-84 with
    src/reparation/repair_unreachable.py:19-63: the block lists given to the repair
    (the repair itself is modelled in PlaceModel.v and RegModel.v). *)
Definition to_repair (r : bool * list greport) : list greport :=
  if fst r then filter ge_repair (snd r) else [].
