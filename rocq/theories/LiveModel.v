(** Liveness: src/liveness/liveness_state.py, src/liveness/liveness_analysis.py
    and the fixpoint iteration of src/analysis/fixpoint_analysis.py. *)
From Verif Require Import Base UtilModel.
Open Scope string_scope. Open Scope list_scope.

(** CFGInstruction: [op], [in_args], [out_args], and the literal arguments
    (src/parser/cfg_instruction.py:126-134, 263-270; [None] when there are none). *)
Record linstr := { li_op : string; li_ins : list string; li_outs : list string; li_lits : option (list string) }.
Definition plain_instr (op : string) (ins outs : list string) : linstr := {| li_op := op; li_ins := ins; li_outs := outs; li_lits := None |}.
(** CFGBlock: [successors] (cfg_block.py:219-221), [get_comes_from()],
    [entries], [get_instructions()]. *)
Record lblock := { lb_succs : list string; lb_preds : list string; lb_entries : list string; lb_instrs : list linstr }.
Definition blocks := list (string * lblock).

Definition is_phi (i : linstr) : bool := String.eqb (li_op i) "PhiFunction".
Definition is_const (x : string) : bool := startswith "0x" x.

(** Python sets of variables are lists; only membership is used. *)
Definition union (a b : list string) : list string := a ++ filter (fun x => negb (mem x a)) b.
Definition diff (a b : list string) : list string := filter (fun x => negb (mem x b)) a.
Definition subset (a b : list string) : bool := forallb (fun x => mem x b) a.

(** src/liveness/liveness_state.py:63-92 ("Uses" is not read by the analysis) *)
Record lsets := { s_defs : list string; s_upward : list string; s_phi_defs : list string }.
Definition add_instr (s : lsets) (i : linstr) : lsets :=
  if is_phi i then {| s_defs := s_defs s; s_upward := s_upward s; s_phi_defs := union (s_phi_defs s) (li_outs i) |}
  else {| s_defs := union (s_defs s) (li_outs i);
          s_upward := union (s_upward s)
            (filter (fun x => negb (is_const x) && negb (mem x (union (s_defs s) (s_phi_defs s)))) (li_ins i));
          s_phi_defs := s_phi_defs s |}.
Definition ssa_liveness_definitions (instrs : list linstr) : lsets :=
  fold_left add_instr instrs {| s_defs := []; s_upward := []; s_phi_defs := [] |}.

(** src/liveness/liveness_state.py:113-130.  [index] raises ValueError when the
    block is not an entry, the subscript IndexError. *)
Fixpoint index_of (x : string) (l : list string) : option nat :=
  match l with [] => None | y :: l' => if String.eqb y x then Some 0 else option_map S (index_of x l') end.
Fixpoint phi_loop (pos : nat) (instrs : list linstr) (uses defs : list string) : result (list string * list string) :=
  match instrs with
  | i :: rest =>
      if is_phi i then
        do arg <- of_option (nth_error (li_ins i) pos);
        phi_loop pos rest (if is_const arg then uses else union uses [arg]) (union defs (li_outs i))
      else Ok (uses, defs)
  | [] => Ok (uses, defs)
  end.
Definition block_id_to_phi_uses (block_id : string) (succ_instrs : list linstr) (succ_entries : list string)
  : result (list string * list string) :=
  do pos <- of_option (index_of block_id succ_entries);
  phi_loop pos succ_instrs [] [].

(** src/liveness/liveness_state.py:133-161 *)
Record binfo := { i_preds : list string; i_sets : lsets; i_phi_uses : list string; i_pred_phi_defs : list string }.
Definition block_info (g : blocks) (id : string) (b : lblock) : result binfo :=
  do ud <- for_each (fun ud s =>
      do sb <- of_option (lookup s g);
      match lb_entries sb with
      | [] => Ok ud
      | es => do r <- block_id_to_phi_uses id (lb_instrs sb) es;
              Ok (union (fst ud) (fst r), union (snd ud) (snd r))
      end) (lb_succs b) ([], []);
  Ok {| i_preds := lb_preds b; i_sets := ssa_liveness_definitions (lb_instrs b); i_phi_uses := fst ud; i_pred_phi_defs := snd ud |}.

(** src/liveness/liveness_analysis.py:68-80 *)
Definition construct_analysis_info (g : blocks) : result (list (string * binfo)) :=
  map_result (fun kb => do i <- block_info g (fst kb) (snd kb); Ok (fst kb, i)) g.

(** The states of a block: [in_state] ([None] before the first visit) and
    [out_state]. *)
Record lstate := { l_in : option (list string); l_out : list string }.
Definition infos := list (string * lstate).

(** src/liveness/liveness_analysis.py:34-44 *)
Definition propagate_information (i : binfo) (st : lstate) : lstate :=
  {| l_in := Some (union (s_upward (i_sets i)) (union (s_phi_defs (i_sets i)) (diff (l_out st) (s_defs (i_sets i)))));
     l_out := l_out st |}.
(** src/liveness/liveness_analysis.py:46-49 *)
Definition propagate_state (i : binfo) (st : lstate) (current : list string) : lstate :=
  {| l_in := l_in st;
     l_out := union (l_out st) (union (i_phi_uses i) (diff current (i_pred_phi_defs i))) |}.

(** src/analysis/fixpoint_analysis.py:129-154, one predecessor.  [pending] is
    kept with the end of the Python list first. *)
Definition process_jump (vertices : list (string * binfo)) (input : list string) (ip : infos * list string) (p : string)
  : result (infos * list string) :=
  let '(info, pending) := ip in
  match lookup p info with
  | None =>
      do i <- of_option (lookup p vertices);
      Ok (dict_set p (propagate_state i {| l_in := None; l_out := [] |} input) info, p :: pending)
  | Some st =>
      if subset input (l_out st) then Ok (info, pending)
      else do i <- of_option (lookup p vertices);
           Ok (dict_set p (propagate_state i st input) info, p :: pending)
  end.
(** src/analysis/fixpoint_analysis.py:113-127 *)
Fixpoint analyze_loop (fuel : nat) (vertices : list (string * binfo)) (info : infos) (pending : list string) : result infos :=
  match pending with
  | [] => Ok info
  | b :: pending' =>
      match fuel with
      | O => Raise OutOfFuel
      | S fuel' =>
          do st <- of_option (lookup b info);
          do i <- of_option (lookup b vertices);
          let st' := propagate_information i st in
          let input := match l_in st' with Some x => x | None => [] end in
          do ip <- for_each (process_jump vertices input) (i_preds i) (dict_set b st' info, pending');
          analyze_loop fuel' vertices (fst ip) (snd ip)
      end
  end.
(** src/analysis/fixpoint_analysis.py:103-111 and
    src/liveness/liveness_analysis.py:102-109 *)
Definition liveness_analysis (fuel : nat) (g : blocks) (terminal_blocks : list string) : result infos :=
  do vertices <- construct_analysis_info g;
  do _ <- map_result (fun t => of_option (lookup t vertices)) terminal_blocks;
  let info := fold_left (fun d t => dict_set t {| l_in := None; l_out := [] |} d) terminal_blocks [] in
  analyze_loop fuel vertices info (rev terminal_blocks).
