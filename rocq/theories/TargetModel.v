(** Model of what the synthesizer does before and after the search:
    src/greedy/greedy_previous_param.py:71-76, 127-247, 317-515, 522-711,
    1593-1714, 1719-1758 and 1839-1937.  The search itself is SearchModel.v.
    The iteration order of Python sets is modelled by the order in which the
    elements were added. *)
From Verif Require Import Base Lexical SymExecModel AsmModel.
From Verif Require UtilModel GreedyTailModel.
From Verif Require Import PermutModel SearchModel.
Open Scope string_scope. Open Scope list_scope. Open Scope Z_scope.

(** A specification: the fields of SymExecModel.sfs, the three kinds of
    dependencies and, by id, the size and the gas of the instructions
    (src/parser/cfg_block.py:578-660). *)
Record spec := {
  t_sfs : sfs;
  t_mem : list (string * string);     (* "memory_dependences" *)
  t_sto : list (string * string);     (* "storage_dependences" *)
  t_trans : list (string * string);   (* "transient_dependences" *)
  t_size : string -> Z;
  t_gas : string -> Z
}.

(** ** Names of operations *)
(** src/greedy/greedy_previous_param.py:19-21 and 27-28 *)
Definition mwrite_operations : list string :=
  ["MSTORE8"; "MSTORE"; "MCOPY"; "CALLDATACOPY"; "CODECOPY"; "RETURNDATACOPY"; "CALL"; "DELEGATECALL"; "STATICCALL";
   "CALLCODE"; "EXTCODECOPY"; "ASSIGNIMMUTABLE"; "LOG0"; "LOG1"; "LOG2"; "LOG3"; "LOG4"; "CREATE"; "CREATE2"].
Definition swrite_operations : list string := ["SSTORE"; "CALL"; "DELEGATECALL"; "STATICCALL"].
Definition twrite_operations : list string := ["TSTORE"; "CALL"; "DELEGATECALL"; "STATICCALL"].
(** src/greedy/greedy_previous_param.py:42-52 *)
Definition is_mwrite (name : string) : bool := mem (delete_extension name) mwrite_operations.
Definition is_swrite (name : string) : bool := mem (delete_extension name) swrite_operations.
Definition is_twrite (name : string) : bool := mem (delete_extension name) twrite_operations.
(** src/greedy/greedy_previous_param.py:72-76 *)
Definition get_ops_id (tbl : list instr) (ops : list string) : list string :=
  map i_id (filter (fun i => mem (i_disasm i) ops) tbl).

Definition pair_mem (p : string * string) (l : list (string * string)) : bool :=
  existsb (fun q => String.eqb (fst q) (fst p) && String.eqb (snd q) (snd p)) l.
Definition add_all (l s : list string) : list string := fold_left (fun s x => UtilModel.set_add x s) l s.
(** [instr['outpt_sk'][0]] *)
Definition first_output (tbl : list instr) (id : string) : result string :=
  do i <- of_option (opid_instr tbl id); of_option (nth_error (i_outpt i) 0).

(** [sorted] and [list.sort]: stable *)
Fixpoint insert_by {A} (le : A -> A -> bool) (x : A) (l : list A) : list A :=
  match l with
  | [] => [x]
  | y :: l' => if le x y then x :: l else y :: insert_by le x l'
  end.
Definition sort_by {A} (le : A -> A -> bool) (l : list A) : list A := fold_right (insert_by le) [] l.
Definition str_le (x y : string) : bool := match String.compare x y with Gt => false | _ => true end.

(** ** The values an operation needs *)
(** src/greedy/greedy_previous_param.py:317-329 *)
Fixpoint all_needed (fuel : nat) (o : string) (tbl : list instr) (seen : list string) : result (list string) :=
  match fuel with
  | O => Raise OutOfFuel
  | S f =>
      if mem o seen then Ok seen
      else
        let all inpts seen := for_each (fun seen x => all_needed f x tbl seen) inpts seen in
        match opid_instr tbl o with
        | Some i => all (i_inpt i) seen
        | None => let seen := UtilModel.set_add o seen in
                  match var_instr tbl o with Some i => all (i_inpt i) seen | None => Ok seen end
        end
  end.
Definition needed_by (tbl : list instr) (o : string) : result (list string) := all_needed (S (S (length tbl))) o tbl [].
(** [for od in l: if v in need_ops[name(od)]: break; else: ...] *)
Fixpoint needed_by_any (tbl : list instr) (name : string -> result string) (v : string) (l : list string) : result bool :=
  match l with
  | [] => Ok false
  | od :: l' => do n <- name od; do s <- needed_by tbl n; if mem v s then Ok true else needed_by_any tbl name v l'
  end.

(** src/greedy/greedy_previous_param.py:510-518 (named [needed] there) *)
Fixpoint value_needs_fuel (fuel : nat) (p0 p1 : string) (tbl : list instr) : result bool :=
  let any := fix any inpts := match inpts with
    | [] => Ok false
    | x :: inpts' => match fuel with
                     | O => Raise OutOfFuel
                     | S f => do b <- value_needs_fuel f p0 x tbl; if b : bool then Ok true else any inpts'
                     end
    end in
  if String.eqb p0 p1 then Ok true
  else match var_instr tbl p1 with None => Ok false | Some i => any (i_inpt i) end.
Definition value_needs (tbl : list instr) (p0 p1 : string) : result bool := value_needs_fuel (S (length tbl)) p0 p1 tbl.
Fixpoint any_needs (tbl : list instr) (vl : string) (args : list string) : result bool :=
  match args with
  | [] => Ok false
  | v :: args' => do b <- value_needs tbl vl v; if b : bool then Ok true else any_needs tbl vl args'
  end.

(** ** The order of the operations *)
(** src/greedy/greedy_previous_param.py:128-133; [level] is the dictionary [pos] *)
Definition max_pos (o : string) (tmax : Z) (deps : list (string * string)) (level : string -> Z) : Z :=
  fold_left (fun m p => if String.eqb o (fst p) then Z.min m (level (snd p) - 1) else m) deps tmax.

(** A dictionary from positions to lists. *)
Definition at_pos (k : Z) (d : list (Z * list string)) : option (list string) :=
  match find (fun kv => fst kv =? k) d with Some kv => Some (snd kv) | None => None end.
Fixpoint put_pos (k : Z) (v : list string) (d : list (Z * list string)) : list (Z * list string) :=
  match d with
  | [] => [(k, v)]
  | (k', v') :: d' => if k' =? k then (k', v) :: d' else (k', v') :: put_pos k v d'
  end.

(** src/greedy/greedy_previous_param.py:175-190 *)
Definition place_op (deps : list (string * string)) (level : string -> Z) (maxpos : Z)
  (acc : list (Z * list string) * list (Z * list string)) (o : string) :=
  let '(poslops, possops) := acc in
  if is_write o then
    (poslops, put_pos (level o) (match at_pos (level o) possops with None => [o] | Some l => [o] ++ l end) possops)
  else
    let mpos := max_pos o maxpos deps level in
    (put_pos mpos (match at_pos mpos poslops with None => [o] | Some l => l ++ [o] end) poslops, possops).

(** src/greedy/greedy_previous_param.py:144-148: the positions from [i] that
    only have operations that do not write *)
Fixpoint join_run (n : nat) (i : Z) (poslops possops : list (Z * list string)) (lops : list string) : list string * Z :=
  match n with
  | O => (lops, i)
  | S n' => match at_pos i poslops, at_pos i possops with
            | Some l, None => join_run n' (i + 1) poslops possops (lops ++ l)
            | _, _ => (lops, i)
            end
  end.
(** src/greedy/greedy_previous_param.py:135-153.  Each round goes past a
    position that is in one of the dictionaries: [n] is large enough. *)
Fixpoint join_loop (n : nat) (i j : Z) (poslops possops nposlops npossops : list (Z * list string))
  : list (Z * list string) * list (Z * list string) :=
  match n with
  | O => (nposlops, npossops)
  | S n' =>
      match at_pos i poslops, at_pos i possops with
      | None, None => (nposlops, npossops)
      | lo, so =>
          let npossops := match so with Some l => npossops ++ [(j, l)] | None => npossops end in
          match lo with
          | Some l => let '(lops, i') := join_run (length poslops) (i + 1) poslops possops l in
                      join_loop n' i' (j + 1) poslops possops (nposlops ++ [(j, lops)]) npossops
          | None => join_loop n' (i + 1) (j + 1) poslops possops nposlops npossops
          end
      end
  end.
Definition join_positions (poslops possops : list (Z * list string)) :=
  join_loop (S (length poslops + length possops)) 0 0 poslops possops [] [].

(** src/greedy/greedy_previous_param.py:221-233: [ldep] and [ldeps] of one store *)
Definition loads_before (deps : list (string * string)) (nostores : list string) (so : string) : list string :=
  filter (fun lo => pair_mem (lo, so) deps) nostores.
Definition loads_apart (tbl : list instr) (so : string) (loads : list string) : result (list string) :=
  for_each (fun acc lo =>
    do vl <- first_output tbl lo;
    do i <- of_option (opid_instr tbl so);
    do b <- any_needs tbl vl (i_inpt i);
    Ok (if b : bool then acc else acc ++ [lo])) loads [].

(** src/greedy/greedy_previous_param.py:237-244 *)
Definition put_loads (loads : list string) (acc : list string * list string) : list string * list string :=
  fold_left (fun acc lop => if mem lop (snd acc) then acc else (fst acc ++ [lop], UtilModel.set_add lop (snd acc))) loads acc.
Definition put_stores (deps : list (string * string)) (nostores : list string) (sos : list string) (opsord : list string)
  : list string * list string :=
  fold_left (fun acc so =>
    let acc := put_loads (loads_before deps nostores so) acc in (fst acc ++ [so], snd acc)) sos (opsord, []).

(** src/greedy/greedy_previous_param.py:203-244, one position with stores; the
    state is [opsord], [cur], [poslops] *)
Definition order_step (tbl : list instr) (deps : list (string * string))
  (acc : list string * Z * list (Z * list string)) (sop : Z * list string) : result (list string * Z * list (Z * list string)) :=
  let '(opsord, cur, poslops) := acc in
  if fst sop =? cur then
    Ok (opsord ++ snd sop,
        match poslops with (p, _) :: _ => if p =? cur then cur else cur + 1 | [] => cur + 1 end, poslops)
  else
    match poslops with
    | [] => Raise OtherError
    | (p, nostores) :: poslops' =>
        do _ <- py_assert (p =? cur);
        do _ <- py_assert (fst sop =? cur + 1);
        let cur' := match poslops' with (p', _) :: _ => if p' =? cur + 1 then cur + 1 else cur + 2 | [] => cur + 2 end in
        do ldeps <- map_result (fun so => do l <- loads_apart tbl so (loads_before deps nostores so); Ok (so, length l)) (snd sop);
        let sos := map fst (sort_by (fun x y => (snd x <=? snd y)%nat) (sort_by (fun x y => str_le (fst x) (fst y)) ldeps)) in
        Ok (fst (put_stores deps nostores sos opsord), cur', poslops')
    end.

(** src/greedy/greedy_previous_param.py:155-250.  The filter of lines 170-171
    goes over the keys of [pos] and compares a character with a number: it
    never holds, so [maxpos] stays (a key of less than two characters would
    raise; ids are longer). *)
Definition sort_with_deps (elems : list string) (deps : list (string * string)) (tbl : list instr)
  : result (list string * list string) :=
  let ops := sort_by str_le (add_all (flat_map (fun p => [fst p; snd p]) deps ++ elems) []) in
  do mindeps <- UtilModel.get_min_deps_map deps;
  let level o := match UtilModel.lookup o mindeps with Some n => Z.of_nat n | None => 0 end in
  let maxpos := fold_left (fun m o => Z.max m (level o)) ops 0 in
  let '(poslops, possops) := fold_left (place_op deps level maxpos) ops ([], []) in
  let '(poslops, possops) := join_positions poslops possops in
  let le (x y : Z * list string) := fst x <=? fst y in
  do r <- for_each (order_step tbl deps) (sort_by le possops) ([], 0, sort_by le poslops);
  let '(opsord, _, poslops) := r in
  Ok (opsord, flat_map snd poslops).

(** src/greedy/greedy_previous_param.py:1593-1602: the last position of each id *)
Definition last_pos (ids : list string) (x : string) : option nat :=
  match index_of x (rev ids) with Some k => Some (length ids - 1 - k)%nat | None => None end.
Definition check_dependencies (deps : list (string * string)) (ids : list string) : bool :=
  forallb (fun p => match last_pos ids (fst p), last_pos ids (snd p) with
                    | Some i, Some j => (i <? j)%nat
                    | _, _ => true
                    end) deps.

(** src/greedy/greedy_previous_param.py:369-373, 383-387 and 396-402: the
    operations that follow, up to the next that writes *)
Fixpoint following (stop : string -> bool) (name : string -> result string) (l : list string) : result (list string) :=
  match l with
  | [] => Ok []
  | o :: l' => do x <- name o; if stop o then Ok [x] else do r <- following stop name l'; Ok (x :: r)
  end.
Definition name_single (tbl : list instr) (o : string) : result string :=
  do i <- of_option (opid_instr tbl o); Ok (match i_outpt i with [v] => v | _ => o end).
Definition name_value (tbl : list instr) (o : string) : result string :=
  if is_write o then Ok o else first_output tbl o.
(** src/greedy/greedy_previous_param.py:350-415 *)
Fixpoint remove_nostores_and_rename (tbl : list instr) (torder final_ops : list string) : result (list string) :=
  match torder with
  | [] => Ok final_ops
  | op :: rest =>
      if is_write op then
        remove_nostores_and_rename tbl rest (if mem op final_ops then final_ops else final_ops ++ [op])
      else
        do next <- (if contains "SLOAD" op then following is_swrite (name_single tbl) rest
                    else if contains "TLOAD" op then following is_twrite (name_single tbl) rest
                    else following is_mwrite (name_value tbl) rest);
        do vop <- first_output tbl op;
        do found <- needed_by_any tbl Ok vop (final_ops ++ next);
        remove_nostores_and_rename tbl rest (if found : bool then final_ops else final_ops ++ [vop])
  end.

(** [while len(lops) > 0: op1 = lops.pop(0); if stop(op1): break] *)
Fixpoint after_write (stop : string -> bool) (l : list string) : list string :=
  match l with [] => [] | o :: l' => if stop o then l' else after_write stop l' end.
(** src/greedy/greedy_previous_param.py:418-464 *)
Fixpoint needed_nostores (tbl : list instr) (final_stack msops : list string) : result (list string) :=
  match msops with
  | [] => Ok []
  | op :: rest =>
      if is_write op then needed_nostores tbl final_stack rest
      else
        let lops := after_write (if contains "SLOAD" op then is_swrite else if contains "TLOAD" op then is_twrite else is_mwrite) rest in
        do v <- first_output tbl op;
        do a <- needed_by_any tbl (name_value tbl) v lops;
        do b <- needed_by_any tbl Ok v final_stack;
        do r <- needed_nostores tbl final_stack rest;
        Ok ((if a || b : bool then [v] else []) ++ r)
  end.

(** src/greedy/greedy_previous_param.py:472-479: the loop over [j] leaves out
    the position 0 *)
Fixpoint first_free (n : nat) (i : nat) (tbl : list instr) (nostores : list string) : result nat :=
  match n with
  | O => Raise OtherError
  | S n' =>
      do x <- of_option (nth_error nostores i);
      do used <- for_each (fun b j => if b : bool then Ok true
                                      else do y <- of_option (nth_error nostores j); computed x y tbl)
                          (seq 1 (i - 1) ++ seq (S i) (length nostores - S i)) false;
      if used : bool then first_free n' (S i) tbl nostores else Ok i
  end.
(** src/greedy/greedy_previous_param.py:482-497 *)
Fixpoint insert_value (tbl : list instr) (order : list (string * string)) (op : string) (torder : list string) : result (list string) :=
  match torder with
  | [] => Ok []
  | cur :: rest =>
      if String.eqb op cur then Ok torder
      else
        do c <- computed op cur tbl;
        if c : bool then Ok (op :: torder)
        else
          do i <- of_option (var_instr tbl op);
          if pair_mem (i_id i, cur) order then Ok (op :: torder)
          else match rest with
               | [] => Ok [cur; op]
               | _ => do r <- insert_value tbl order op rest; Ok (cur :: r)
               end
  end.
(** src/greedy/greedy_previous_param.py:467-499; [order] is
    [mem_order] and [sto_order] *)
Fixpoint add_needed_nostores (n : nat) (tbl : list instr) (order : list (string * string)) (nostores torder : list string) : result (list string) :=
  match nostores, n with
  | [], _ => Ok torder
  | _, O => Raise OutOfFuel
  | _, S n' =>
      do i <- first_free (S (length nostores)) 0 tbl nostores;
      do op <- of_option (nth_error nostores i);
      do torder <- insert_value tbl order op torder;
      add_needed_nostores n' tbl order (firstn i nostores ++ skipn (S i) nostores) torder
  end.

(** ** The constructor *)
(** src/greedy/greedy_previous_param.py:588-616 *)
Definition extend_dependencies (tbl : list instr) (deps : list (string * string)) (ops : list string) (alldeps : list (string * string))
  : result (list (string * string)) :=
  let depop := add_all (get_ops_id tbl ops ++ flat_map (fun p => [fst p; snd p]) deps) [] in
  let single o := match opid_instr tbl o with Some i => (length (i_outpt i) =? 1)%nat | None => false end in
  let depop_res := add_all (filter single (flat_map (fun p => [fst p; snd p]) alldeps)) [] in
  do need_ops <- map_result (fun o => do s <- needed_by tbl o; Ok (o, s)) depop;
  for_each (fun deps o =>
    do v <- first_output tbl o;
    Ok (fold_left (fun deps (os : string * list string) =>
          if negb (String.eqb o (fst os)) && mem v (snd os) && negb (pair_mem (o, fst os) deps) then deps ++ [(o, fst os)] else deps)
        need_ops deps)) depop_res deps.

(** src/greedy/greedy_previous_param.py:618-640: the occurrences in the target
    are counted twice *)
Definition add_dup_pushes (tbl : list instr) (size : string -> Z) (final : list string) (push_dup : Z) : list string :=
  flat_map (fun i =>
    match i_outpt i with
    | [o] =>
        match var_instr tbl o with
        | Some i =>
            if contains "PUSH" (i_disasm i) && negb (contains "PUSH0" (i_disasm i)) then
              let n := zcount o final + fold_left (fun n k => n + zcount o (i_inpt k)) tbl 0 + zcount o final in
              if n + size (i_id i) + push_dup <=? n * size (i_id i) then [o] else []
            else []
        | None => []
        end
    | _ => []
    end) tbl.

(** The object: what is read from the specification and prepared for the search. *)
Record encoding := {
  e_setup : setup;
  e_tbl : list instr;
  e_mem : list (string * string);
  e_sto : list (string * string);
  e_trans : list (string * string);
  e_deps : list (string * string);
  e_todo : list string;
  e_gas : string -> Z
}.
(** src/greedy/greedy_previous_param.py:522-586.  [self._opid_times_used] is
    only used for the fields added to the specification (lines 1914-1922), which
    are left out; the assertion on the number of results is kept.  [tbl]: the
    instructions, that a previous search may have changed; [final]: the target of
    the search, which in the second attempt is extended after the construction
    (line 1881), so the repeated pushes are counted for the target of the
    specification; [max_swap] is the argument of [compute]. *)
Definition init (reach : nat) (push_dup max_swap : Z) (sp : spec) (tbl : list instr) (final : list string) : result encoding :=
  let all := t_mem sp ++ t_sto sp ++ t_trans sp in
  do mem_order <- extend_dependencies tbl (t_mem sp) mwrite_operations all;
  do sto_order <- extend_dependencies tbl (t_sto sp) swrite_operations all;
  do trans_order <- extend_dependencies tbl (t_trans sp) twrite_operations all;
  do _ <- py_assert (forallb (fun i => match opid_instr tbl (i_id i) with Some k => (length (i_outpt k) <=? 1)%nat | None => true end) tbl);
  let func_order := filter (fun d => negb (pair_mem d (mem_order ++ sto_order ++ trans_order))) (s_deps (t_sfs sp)) in
  do fd <- for_each (fun acc d =>
    do o0 <- first_output tbl (fst d);
    do o1 <- first_output tbl (snd d);
    let m : list (string * list string) := fst acc in
    Ok (UtilModel.dict_set o1 (match UtilModel.lookup o1 m with Some l => l ++ [o0] | None => [o0] end) m,
        UtilModel.set_add o0 (snd acc))) func_order ([], []);
  Ok {| e_setup := {| g_reach := reach; g_final := final; g_initial := s_src (t_sfs sp);
                      g_dup_pushes := add_dup_pushes tbl (t_size sp) (s_tgt (t_sfs sp)) push_dup;
                      g_size := t_size sp; g_func_deps := fst fd; g_max_swap := max_swap |};
        e_tbl := tbl; e_mem := mem_order; e_sto := sto_order; e_trans := trans_order;
        e_deps := s_deps (t_sfs sp); e_todo := snd fd; e_gas := t_gas sp |}.

(** ** How often the values are used *)
(** src/greedy/greedy_previous_param.py:1728-1735 *)
Fixpoint tree_size (fuel : nat) (e : encoding) (op : string) : result Z :=
  match var_instr (e_tbl e) op with
  | None => do _ <- py_assert (mem op (g_initial (e_setup e))); Ok 1
  | Some i => match fuel with
              | O => Raise OutOfFuel
              | S f => for_each (fun n ch => do k <- tree_size f e ch; Ok (n + k)) (i_inpt i) 1
              end
  end.
(** src/greedy/greedy_previous_param.py:1737-1747 *)
Fixpoint easy_compute (fuel : nat) (e : encoding) (op : string) : result bool :=
  match var_instr (e_tbl e) op with
  | None => Ok true
  | Some i =>
      if 15 <=? e_gas e (i_id i) then Ok false
      else match fuel with
           | O => Raise OutOfFuel
           | S f =>
               do easy <- for_each (fun b ch => if b : bool then easy_compute f e ch else Ok false) (i_inpt i) true;
               if easy : bool then do n <- tree_size (S f) e op; Ok (negb (3 <=? n)) else Ok false
           end
  end.
(** src/greedy/greedy_previous_param.py:667-679 *)
Definition duplicate (e : encoding) (forced : list string) (o : string) : result bool :=
  if mem o forced then Ok true
  else if mem o (g_initial (e_setup e)) then Ok true
  else if mem o (e_todo e) then Ok true
  else if negb (small_zeroary (e_setup e) (e_tbl e) o) then Ok true
  else do b <- easy_compute (S (length (e_tbl e))) e o; Ok (negb b).
(** src/greedy/greedy_previous_param.py:681-689 *)
Fixpoint count_uses_one (fuel : nat) (e : encoding) (forced : list string) (uses : list (string * Z)) (o : string) : result (list (string * Z)) :=
  match UtilModel.lookup o uses with
  | Some n => Ok (UtilModel.dict_set o (n + 1) uses)
  | None =>
      let called := match var_instr (e_tbl e) o with Some i => is_mwrite_output (i_id i) | None => false end in
      do d <- duplicate e forced o;
      let uses := if d || called : bool then UtilModel.dict_set o 1 uses else uses in
      match var_instr (e_tbl e) o with
      | Some i => if called then Ok uses
                  else match fuel with
                       | O => Raise OutOfFuel
                       | S f => for_each (count_uses_one f e forced) (i_inpt i) uses
                       end
      | None => Ok uses
      end
  end.
(** src/greedy/greedy_previous_param.py:691-711 *)
Definition count_uses (e : encoding) (forced : list string) : result (list (string * Z)) :=
  let fuel := S (length (e_tbl e)) in
  let uses := fold_left (fun u o => UtilModel.dict_set o 0 u) (g_initial (e_setup e)) [] in
  do uses <- for_each (fun u o =>
    do i <- of_option (opid_instr (e_tbl e) o);
    do _ <- py_assert (length (i_outpt i) <=? 1)%nat;
    for_each (count_uses_one fuel e forced) (i_inpt i) u)
    (get_ops_id (e_tbl e) mwrite_operations ++ get_ops_id (e_tbl e) ["TSTORE"] ++ get_ops_id (e_tbl e) ["SSTORE"]) uses;
  for_each (count_uses_one fuel e forced) (g_final (e_setup e)) uses.

(** ** The plan *)
(** src/greedy/greedy_previous_param.py:1604-1712.  The numbers in
    [_needed_in_stack_map] computed at lines 1659-1686 are replaced by
    [self.uses] at line 1705; only the keys matter (lines 1691 and 1701). *)
Definition target (e : encoding) : result (list string * list string * list (string * Z)) :=
  let tbl := e_tbl e in
  let allops := get_ops_id tbl ["TSTORE"] ++ get_ops_id tbl ["SSTORE"] ++ get_ops_id tbl mwrite_operations in
  do order <- sort_with_deps allops (e_trans e ++ e_sto e ++ e_mem e) tbl;
  let '(neworder, final_ids) := order in
  do _ <- py_assert (check_dependencies (e_deps e) (neworder ++ final_ids));
  do final_no_store <- map_result (first_output tbl) final_ids;
  do nostores <- needed_nostores tbl (g_final (e_setup e)) neworder;
  let forced := sort_by str_le (add_all nostores []) in
  do torder <- remove_nostores_and_rename tbl neworder [];
  do torder <- add_needed_nostores (length forced) tbl (e_mem e ++ e_sto e) forced torder;
  do _ <- py_assert (forallb (fun o => mem o torder) forced);
  do uses <- count_uses e forced;
  let kept := forced ++ g_initial (e_setup e) in
  let uses := filter (fun kv => mem (fst kv) kept || negb (snd kv =? 1)
                                || match var_instr tbl (fst kv) with Some i => is_mwrite_output (i_id i) | None => false end) uses in
  do _ <- py_assert (forallb (fun o => mem o (map fst uses)) kept);
  Ok (torder, final_no_store, uses).

(** src/greedy/greedy_previous_param.py:1749-1760 *)
Definition accept (e : encoding) (ids : list string) : bool :=
  forallb (fun id => match opid_instr (e_tbl e) id with
                     | Some i =>
                         let v := match i_outpt i with [v] => v | _ => "" end in
                         negb (match i_inpt i with [] => true | _ => false end && negb (small_zeroary (e_setup e) (e_tbl e) v)
                               && (1 <? count id ids)%nat)
                     | None => true
                     end) ids.

(** ** The synthesizer *)
(** src/greedy/greedy_previous_param.py:1855-1868 and 1883-1896: plan and search *)
Definition plan_and_search (fuel : nat) (e : encoding) : result (list op * list instr) :=
  do t <- target e;
  let '(pending, nostore, uses) := t in
  search fuel (e_setup e) pending nostore {| g_tbl := e_tbl e; g_need := uses; g_dup := 0; g_todo := e_todo e; g_done := [] |}.
(** Lines 1878-1899: the second attempt, for the target followed by the source.
    The first has changed the lists of dependencies and the instructions, which
    both share. *)
Definition second_attempt (fuel reach : nat) (push_dup : Z) (sp : spec) (e : encoding) (tbl : list instr) : result (list op * bool) :=
  do e2 <- init reach push_dup 3
            {| t_sfs := t_sfs sp; t_mem := e_mem e; t_sto := e_sto e; t_trans := e_trans e; t_size := t_size sp; t_gas := t_gas sp |}
            tbl (s_tgt (t_sfs sp) ++ s_src (t_sfs sp));
  do r2 <- plan_and_search fuel e2;
  do _ <- GreedyTailModel.check_dup_swap (Z.of_nat reach) (map snd (fst r2));
  let ids2 := GreedyTailModel.remove_useless (fst r2) in
  Ok (ids2, accept {| e_setup := e_setup e2; e_tbl := snd r2; e_mem := e_mem e2; e_sto := e_sto e2; e_trans := e_trans e2;
                      e_deps := e_deps e2; e_todo := e_todo e2; e_gas := e_gas e2 |} (map snd ids2)).
(** Lines 1854-1937, inside the [try].  The second sequence is taken if both are
    accepted and it is shorter.  ([accept] only looks at which instructions have
    operands: it does not matter that the searches reverse some.) *)
Definition synthesize_body (fuel reach : nat) (push_dup : Z) (garbage : bool) (sp : spec) (e : encoding) : result (list op) :=
  do r <- plan_and_search fuel e;
  do _ <- py_assert (check_dependencies (e_deps e) (map snd (fst r)));
  do _ <- GreedyTailModel.check_dup_swap (Z.of_nat reach) (map snd (fst r));
  let ids := GreedyTailModel.remove_useless (fst r) in
  if garbage then
    do s <- second_attempt fuel reach push_dup sp e (snd r);
    if accept e (map snd ids) && snd s && (length (fst s) <? length ids)%nat then Ok (fst s) else Ok ids
  else Ok ids.
(** src/greedy/greedy_previous_param.py:1839-1937: [None] if an assertion
    failed.  The changes to the specification (lines 1914-1922) are left out:
    their condition holds only for an empty sequence (the field
    "init_progr_len" is 0, src/parser/cfg_block.py:600). *)
Definition greedy_from_json (fuel reach : nat) (push_dup : Z) (garbage : bool) (sp : spec) : result (option (list op)) :=
  do e <- init reach push_dup (Z.min 2 (Z.of_nat reach)) sp (s_instrs (t_sfs sp)) (s_tgt (t_sfs sp));
  match synthesize_body fuel reach push_dup garbage sp e with
  | Ok l => Ok (Some l)
  | Raise AssertionError => Ok None
  | Raise x => Raise x
  end.
