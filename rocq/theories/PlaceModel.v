(** Where the repair stores the values that the code loads from registers:
    src/reparation/{reachability,insert_placeholders}.py and
    src/greedy/greedy_info.py. *)
From Verif Require Import Base Lexical SymExecModel AsmModel DepsModel SpecModel UtilModel WebModel RegModel.
Open Scope string_scope. Open Scope list_scope.

(** Counters: variable and number of occurrences; an absent variable counts 0. *)
Definition counter := list (string * nat).
Definition cget (c : counter) (v : string) : nat := match lookup v c with Some n => n | None => 0 end.
(** [c.update([v])] and [c[v] += 1] *)
Definition cinc (c : counter) (v : string) : counter := dict_set v (cget c v + 1) c.
(** [c += d]; the counts are all positive, so none is dropped *)
Definition cplus (c d : counter) : counter := fold_left (fun c p => dict_set (fst p) (cget c (fst p) + snd p) c) d c.
(** [c.pop(v)] for a present variable *)
Definition cpop (v : string) (c : counter) : counter := filter (fun p => negb (fst p =? v)) c.

(** The fields read and written here of a block and its GreedyInfo
    (src/greedy/greedy_info.py:20-47).  [pb_call] is the split instruction of a
    block that ends in a function call (jump type "sub_block"): number of
    arguments and results.  [pb_copies] is [virtual_copies]. *)
Record pblock := {
  pb_name : string;
  pb_phis : list (string * list string);
  pb_entries : list string;
  pb_succs : list string;
  pb_src : list string;
  pb_instrs : list instr;
  pb_call : option (nat * list string);
  pb_live_in : list string;
  pb_declared : list string;
  pb_ids : list string;
  pb_reach : list (string * (nat * nat * bool));
  pb_unreach : list string;
  pb_count : counter;
  pb_copies : list (string * bool);
  pb_solve : list string
}.
Definition with_reach (b : pblock) r u : pblock :=
  {| pb_name := pb_name b; pb_phis := pb_phis b; pb_entries := pb_entries b; pb_succs := pb_succs b; pb_src := pb_src b;
     pb_instrs := pb_instrs b; pb_call := pb_call b; pb_live_in := pb_live_in b; pb_declared := pb_declared b; pb_ids := pb_ids b;
     pb_reach := r; pb_unreach := u; pb_count := pb_count b; pb_copies := pb_copies b; pb_solve := pb_solve b |}.
Definition with_ids (b : pblock) ids r : pblock :=
  {| pb_name := pb_name b; pb_phis := pb_phis b; pb_entries := pb_entries b; pb_succs := pb_succs b; pb_src := pb_src b;
     pb_instrs := pb_instrs b; pb_call := pb_call b; pb_live_in := pb_live_in b; pb_declared := pb_declared b; pb_ids := ids;
     pb_reach := r; pb_unreach := pb_unreach b; pb_count := pb_count b; pb_copies := pb_copies b; pb_solve := pb_solve b |}.
Definition with_copies (b : pblock) c v : pblock :=
  {| pb_name := pb_name b; pb_phis := pb_phis b; pb_entries := pb_entries b; pb_succs := pb_succs b; pb_src := pb_src b;
     pb_instrs := pb_instrs b; pb_call := pb_call b; pb_live_in := pb_live_in b; pb_declared := pb_declared b; pb_ids := pb_ids b;
     pb_reach := pb_reach b; pb_unreach := pb_unreach b; pb_count := c; pb_copies := v; pb_solve := pb_solve b |}.
Definition with_solve (b : pblock) s : pblock :=
  {| pb_name := pb_name b; pb_phis := pb_phis b; pb_entries := pb_entries b; pb_succs := pb_succs b; pb_src := pb_src b;
     pb_instrs := pb_instrs b; pb_call := pb_call b; pb_live_in := pb_live_in b; pb_declared := pb_declared b; pb_ids := pb_ids b;
     pb_reach := pb_reach b; pb_unreach := pb_unreach b; pb_count := pb_count b; pb_copies := pb_copies b; pb_solve := s |}.

(* ------------------------------------------------------------------ *)
(** ** Uses of registers in a block *)

(** src/greedy/greedy_info.py:59-72: the counter, the number of VGETs after a
    VSET of the same variable; [has_vget] is not used by the repair. *)
Definition initial_get_count (ids : list string) : counter * nat :=
  let '(c, n, _) := fold_left (fun st id => let '(c, n, accessed) := (st : counter * nat * list string) in
    if startswith "VGET" id then
      match extract_value id with
      | Some v => if mem v accessed then (c, n + 1, accessed) else (cinc c v, n, accessed)
      | None => st
      end
    else if startswith "VSET" id then
      match extract_value id with Some v => (c, n, v :: accessed) | None => st end
    else st) ids ([], 0, []) in (c, n).

(* ------------------------------------------------------------------ *)
(** ** Reachability *)

(** src/reparation/reachability.py:19-25; [depth] is constants.MAX_STACK_DEPTH *)
Definition update_reachable (depth : nat) (stack : list string) (pos : nat) (d : list (string * (nat * nat * bool)))
  (is_last : bool) (forbidden : list string) : list (string * (nat * nat * bool)) :=
  fold_left (fun d ie => if mem (snd ie) forbidden then d else dict_set (snd ie) (fst ie, pos, is_last) d)
    (combine (seq 0 (length (firstn depth stack))) (firstn depth stack)) d.
(** src/reparation/reachability.py:41-53, from position [pos] on; [n] is the
    number of ids *)
Fixpoint reach_ids (depth n : nat) (call : bool) (ids : list string) (ui : list instr) (pos : nat) (stack : list string)
  (d : list (string * (nat * nat * bool))) (forbidden : list string)
  : result (list string * list (string * (nat * nat * bool)) * list string) :=
  match ids with
  | [] => Ok (stack, d, forbidden)
  | id :: ids' =>
      do stack' <- execute_instr_id id stack ui;
      let forbidden' := if startswith "VGET" id then match extract_value id with Some v => v :: forbidden | None => forbidden end
                        else forbidden in
      reach_ids depth n call ids' ui (S pos) stack'
        (update_reachable depth stack' (S pos) d (negb call && (S pos =? n)%nat) forbidden') forbidden'
  end.
(** src/reparation/reachability.py:28-63 *)
Definition reachability_from_greedy (depth : nat) (ids src : list string) (ui : list instr) (call : option (nat * list string))
  : result (list (string * (nat * nat * bool))) :=
  let n := length ids in
  let d := update_reachable depth src 0 [] (n =? 0)%nat [] in
  do r <- reach_ids depth n (match call with Some _ => true | None => false end) ids ui 0 src d [];
  let '(stack, d', forbidden) := r in
  match call with
  | None => Ok d'
  | Some (n_in, outs) => Ok (update_reachable depth (outs ++ skipn n_in stack) (S n) d' true forbidden)
  end.
(** src/reparation/reachability.py:66-71 *)
Definition block_unreachability (reachable previous live_in declared : list string) : list string :=
  filter (fun v => negb (mem v reachable)) (filter (fun v => mem v live_in) previous ++ declared).

(** A dominator tree of blocks. *)
Inductive ptree := PNode (b : pblock) (children : list ptree).

(** src/reparation/reachability.py:74-100 *)
Fixpoint construct_reachability (depth : nat) (previous : list string) (t : ptree) : result ptree :=
  match t with
  | PNode b ch =>
      do r <- reachability_from_greedy depth (pb_ids b) (pb_src b) (pb_instrs b) (pb_call b);
      let u := block_unreachability (map fst r) previous (pb_live_in b) (pb_declared b) in
      do ch' <- (fix go (ch : list ptree) : result (list ptree) :=
        match ch with
        | [] => Ok []
        | t' :: ch' => do t'' <- construct_reachability depth u t'; do ch'' <- go ch'; Ok (t'' :: ch'')
        end) ch;
      Ok (PNode (with_reach b r u) ch')
  end.

(* ------------------------------------------------------------------ *)
(** ** Phi functions that cannot be kept in the stack *)

(** src/greedy/greedy_info.py:83-98 *)
Definition add_virtual_copy (v : string) (b : pblock) : pblock :=
  let last := match lookup v (pb_reach b) with Some (_, _, l) => l | None => false end in
  with_copies b (if (last : bool) then pb_count b else cinc (pb_count b) v) (dict_set v last (pb_copies b)).

Definition pblocks := list (string * pblock).
(** src/reparation/insert_placeholders.py:48-51.  A later block overwrites an
    earlier one. *)
Definition phi_def2block (bs : pblocks) : list (string * string) :=
  fold_left (fun d nb => fold_left (fun d phi => dict_set (fst phi) (fst nb) d) (pb_phis (snd nb)) d) bs [].

(** src/reparation/insert_placeholders.py:83-97: the arguments of a phi
    function; returns the blocks, the pairs to visit (last first). *)
Fixpoint fix_args (args entries : list string) (handled : list string) (defs : list (string * string))
  (bs : pblocks) (todo : list (string * string)) : result (pblocks * list (string * string)) :=
  match args, entries with
  | a :: args', e :: entries' =>
      do be <- of_option (lookup e bs);
      do todo' <- (if mem a (pb_unreach be) && negb (mem a handled)
                   then do bd <- of_option (lookup a defs); Ok ((a, bd) :: todo) else Ok todo);
      fix_args args' entries' handled defs (dict_set e (add_virtual_copy a be) bs) todo'
  | _, _ => Ok (bs, todo)
  end.
(** src/reparation/insert_placeholders.py:72-99.  Simplification: the assertion
    on the operation and [instruction_from_out] together are "the block has a phi
    function that defines the variable".  The set of arguments joined is
    visited in the order of the arguments. *)
Fixpoint fix_loop (fuel : nat) (todo : list (string * string)) (handled : list string) (defs : list (string * string))
  (bs : pblocks) (joined : list (string * list string)) (w : webs)
  : result (list string * pblocks * list (string * list string) * webs) :=
  match todo with
  | [] => Ok (handled, bs, joined, w)
  | (v, name) :: todo' =>
      match fuel with
      | O => Raise OutOfFuel
      | S fuel' =>
          do b <- of_option (lookup name bs);
          do args <- of_option (lookup v (pb_phis b));
          let bs1 := dict_set name (with_solve b (set_add v (pb_solve b))) bs in
          let used := firstn (length (pb_entries b)) args in
          do r <- fix_args args (pb_entries b) (v :: handled) defs bs1 todo'; let '(bs2, todo2) := r in
          do w' <- join_phi w (v, used);
          fix_loop fuel' todo2 (v :: handled) defs bs2 (joined ++ [(v, used)]) w'
      end
  end.
(** src/reparation/insert_placeholders.py:32-40 and 56-101.  [to_fix] is a set:
    any order. *)
Definition fix_phi_values (fuel : nat) (to_fix : list string) (bs : pblocks)
  : result (pblocks * list (string * list string) * webs) :=
  let defs := phi_def2block bs in
  let elements := filter (fun v => match lookup v defs with
    | Some name => match lookup name bs with Some b => mem v (pb_unreach b) | None => false end
    | None => false end) to_fix in
  do r <- for_each (fun st v => let '(handled, bs, joined, w) := st in
      do name <- of_option (lookup v defs);
      fix_loop fuel [(v, name)] handled defs bs joined w) elements ([], bs, [], empty_webs);
  let '(_, bs', joined, w) := r in Ok (bs', joined, w).

(* ------------------------------------------------------------------ *)
(** ** Where the values are stored *)

(** The loop nesting forest: nodes and edges. *)
Record forest := { f_nodes : list string; f_edges : list (string * string) }.
Definition f_succs (f : forest) (x : string) : list string := map snd (filter (fun e => fst e =? x) (f_edges f)).
Definition f_preds (f : forest) (x : string) : list string := map fst (filter (fun e => snd e =? x) (f_edges f)).

(** src/reparation/insert_placeholders.py:115-147 *)
Definition variable2block_header (bs : pblocks) (start : string) (f : forest) : result (list (string * string)) :=
  do d <- for_each (fun d id =>
    do b <- of_option (lookup id bs);
    match f_succs f id with
    | [] => do p <- (match f_preds f id with [p] => Ok p | _ => Raise AssertionError end);
            Ok (fold_left (fun d v => dict_set v p d) (pb_declared b) d)
    | _ => Ok (fold_left (fun d v => dict_set v id d) (pb_declared b) d)
    end) (f_nodes f) [];
  do b <- of_option (lookup start bs);
  Ok (fold_left (fun d v => dict_set v start d) (pb_src b) d).
(** src/reparation/insert_placeholders.py:150-163 *)
Definition entry_loop (f : forest) (id : string) : option string :=
  if mem id (f_nodes f) then
    match f_succs f id with
    | _ :: _ => Some id
    | [] => hd_error (f_preds f id)
    end
  else None.
Definition opt_eqb (a b : option string) : bool :=
  match a, b with Some x, Some y => x =? y | None, None => true | _, _ => false end.
(** src/reparation/insert_placeholders.py:166-182 *)
Definition within_loop (f : forest) (var2header : list (string * string)) (v id : string) : bool :=
  match lookup v var2header with
  | None => negb (mem id (f_nodes f))
  | Some h => opt_eqb (entry_loop f id) (entry_loop f h)
  end.

(** src/reparation/insert_placeholders.py:187-205; returns the elements, the
    left counter and the right counter. *)
Definition zero_step (st : list string * counter) (p : string * nat) : list string * counter :=
  let '(zero, lc) := st in
  if (cget lc (fst p) =? snd p)%nat then (set_add (fst p) zero, cpop (fst p) lc) else st.
Definition substract_zero (lc rc : counter) : list string * counter * counter :=
  let '(zero, lc') := fold_left zero_step rc ([], lc) in
  (zero, lc', fold_left (fun c v => cpop v c) zero rc).

(** src/greedy/greedy_info.py:100-114; [list.insert] past the end appends *)
Definition insert_dup_vset (v : string) (b : pblock) : result pblock :=
  do r <- of_option (lookup v (pb_reach b));
  let '(p, k, _) := r in
  Ok (with_ids b (firstn k (pb_ids b) ++ ("DUP-VSET(" ++ v ++ "," ++ str_nat p ++ ")")%string :: skipn k (pb_ids b))
    (map (fun e => let '(x, (p', k', l')) := e in (x, (p', if (k <=? k')%nat then k' + 1 else k', l'))) (pb_reach b))).

Definition set_union (a b : list string) : list string := fold_left (fun s v => set_add v s) b a.

Section Store.
(** The order in which Python visits a set: unspecified. *)
Variable order : string -> list string -> list string.
(** [within_loop] for the block list *)
Variable within : string -> string -> bool.

(** src/reparation/insert_placeholders.py:264-272; [intro] is
    [vars_to_introduce] *)
Definition store_here (intro : list string) (b : pblock) : result (pblock * list string) :=
  do r <- for_each (fun st v => let '(b, stored) := (st : pblock * list string) in
      if within v (pb_name b) then do b' <- insert_dup_vset v b; Ok (b', v :: stored) else Ok st)
    (order (pb_name b) (filter (fun v => mem v (map fst (pb_reach b))) intro)) (b, []);
  let '(b', stored) := r in Ok (b', filter (fun v => negb (mem v stored)) intro).
(** src/reparation/insert_placeholders.py:230-275 without [mark_last_uses]
    (which reads the ids of the block and what its children use, and writes
    [last_use] only: see RegModel.mark_tree).  The first counter is shared by the
    whole recursion. *)
Fixpoint store_block (t : ptree) (initial : counter) : result (ptree * list string * counter * counter) :=
  match t with
  | PNode b ch =>
      do r <- (fix go (ch : list ptree) (initial : counter) (intro : list string) (combined : counter)
        : result (list ptree * list string * counter * counter) :=
        match ch with
        | [] => Ok ([], intro, combined, initial)
        | t' :: ch' =>
            do r <- store_block t' initial; let '(t'', vs, c, initial') := r in
            do rs <- go ch' initial' (set_union intro vs) (cplus combined c);
            let '(ts, intro', combined', initial'') := rs in Ok (t'' :: ts, intro', combined', initial'')
        end) ch initial [] [];
      let '(ch', intro, combined, initial1) := r in
      let '(zero, initial2, combined2) := substract_zero initial1 (cplus combined (pb_count b)) in
      let intro2 := set_union intro zero in
      do s <- store_here intro2 b; let '(b', left_vars) := s in
      Ok (PNode b' ch', left_vars, combined2, initial2)
  end.
End Store.

Fixpoint tree_blocks (t : ptree) : list pblock :=
  match t with PNode b ch => b :: concat (map tree_blocks ch) end.
(** src/reparation/insert_placeholders.py:208-228.  [all] are the blocks of
    the list, also those that the start block does not reach (they are not in the
    tree, and what they load is counted all the same).  Returns the tree, the variables stored nowhere
    (Python drops them) and the number of values. *)
Definition store_tree (order : string -> list string -> list string) (within : string -> string -> bool) (all : list pblock) (t : ptree)
  : result (ptree * list string * nat) :=
  let total := fold_left (fun c b => cplus c (pb_count b)) all [] in
  let dominated := fold_left (fun n b => n + snd (initial_get_count (pb_ids b))) all 0 in
  do r <- store_block order within t total;
  let '(t', rest, _, _) := r in Ok (t', rest, length total + dominated).

(* ------------------------------------------------------------------ *)
(** ** The whole pass *)

(** A tree with its blocks replaced by those of a dictionary. *)
Fixpoint reblock (bs : pblocks) (t : ptree) : result ptree :=
  match t with
  | PNode b ch =>
      do b' <- of_option (lookup (pb_name b) bs);
      do ch' <- (fix go (ch : list ptree) : result (list ptree) :=
        match ch with [] => Ok [] | t' :: ch' => do t'' <- reblock bs t'; do ch'' <- go ch'; Ok (t'' :: ch'') end) ch;
      Ok (PNode b' ch')
  end.
(** src/greedy/greedy_info.py:20-34: the GreedyInfo of the ids of a block *)
Definition fresh_info (b : pblock) : pblock :=
  {| pb_name := pb_name b; pb_phis := pb_phis b; pb_entries := pb_entries b; pb_succs := pb_succs b; pb_src := pb_src b;
     pb_instrs := pb_instrs b; pb_call := pb_call b; pb_live_in := pb_live_in b; pb_declared := pb_declared b; pb_ids := pb_ids b;
     pb_reach := []; pb_unreach := []; pb_count := fst (initial_get_count (pb_ids b)); pb_copies := []; pb_solve := [] |}.
Fixpoint pmap (f : pblock -> pblock) (t : ptree) : ptree :=
  match t with PNode b ch => PNode (f b) (map (pmap f) ch) end.
(** The view of a block that the colouring uses. *)
Definition to_rblock (b : pblock) : rblock :=
  {| rb_name := pb_name b; rb_phis := pb_phis b; rb_entries := pb_entries b; rb_succs := pb_succs b; rb_ids := pb_ids b;
     rb_copies := map fst (pb_copies b); rb_solve := pb_solve b; rb_reach := pb_reach b; rb_last := no_uses |}.
Fixpoint to_dtree (t : ptree) : dtree :=
  match t with PNode b ch => DNode (to_rblock b) (map to_dtree ch) end.

(** src/reparation/repair_unreachable.py:74-96 up to the colouring, with
    insert_placeholders.py:26-44: the repaired tree, the variables stored nowhere,
    the colouring and the number of values. *)
Definition repair_tree (depth fuel : nat) (order : string -> list string -> list string) (f : forest) (to_fix : list string) (t : ptree)
  : result (ptree * list string * nat * option colouring) :=
  do t1 <- construct_reachability depth [] (pmap fresh_info t);
  do r <- fix_phi_values fuel to_fix (map (fun b => (pb_name b, b)) (tree_blocks t1)); let '(bs, joined, w) := r in
  do t2 <- reblock bs t1;
  let start := match t with PNode b _ => pb_name b end in
  do headers <- variable2block_header bs start f;
  do s <- store_tree order (within_loop f headers) (map snd bs) t2; let '(t3, rest, n) := s in
  let num_vals := n + length (w_class w) in
  if (0 <? num_vals)%nat then
    do k <- tree_scan (fst (mark_tree (to_dtree t3))) w num_vals;
    Ok (t3, rest, num_vals, Some k)
  else Ok (t3, rest, num_vals, None).
