(** Graph algorithms: src/graphs/cfg.py.  A networkx DiGraph is the association
    list from nodes (in insertion order) to successors (in insertion order). *)
From Verif Require Import Base UtilModel.
Open Scope string_scope. Open Scope list_scope.

Definition dgraph := list (string * list string).
Definition nodes (g : dgraph) : list string := map fst g.
(** [G.successors(u)]; unknown nodes raise in networkx, here they have none. *)
Definition successors (g : dgraph) (u : string) : list string :=
  match lookup u g with Some s => s | None => [] end.
(** [G.predecessors(n)]; networkx keeps them in edge insertion order, here in
    node order: only the resulting set matters below. *)
Definition predecessors (g : dgraph) (n : string) : list string :=
  map fst (filter (fun e => mem n (snd e)) g).

(** src/graphs/cfg.py:10-32.  The three collections of the closure are
    [visited], [rec_stack] (most recent first) and [back_edges]. *)
Record dfs_state := { d_visited : list string; d_stack : list string; d_back : list (string * string) }.
Fixpoint dfs (fuel : nat) (g : dgraph) (st : dfs_state) (u : string) : result dfs_state :=
  match fuel with
  | O => Raise OutOfFuel
  | S fuel' =>
      do st' <- for_each (fun st v =>
            if negb (mem v (d_visited st)) then dfs fuel' g st v
            else if mem v (d_stack st) then
              Ok {| d_visited := d_visited st; d_stack := d_stack st; d_back := d_back st ++ [(u, v)] |}
            else Ok st)
          (successors g u)
          {| d_visited := u :: d_visited st; d_stack := u :: d_stack st; d_back := d_back st |};
      Ok {| d_visited := d_visited st'; d_stack := filter (fun x => negb (String.eqb x u)) (d_stack st');
            d_back := d_back st' |}
  end.
Definition find_back_edges (g : dgraph) : result (list (string * string)) :=
  do st <- for_each (fun st u => if mem u (d_visited st) then Ok st else dfs (S (length g)) g st u)
             (nodes g) {| d_visited := []; d_stack := []; d_back := [] |};
  Ok (d_back st).

(** src/graphs/cfg.py:35-46.  [worklist.pop()] takes the last element. *)
Fixpoint natural_loop (fuel : nat) (g : dgraph) (loop_nodes worklist : list string) : result (list string) :=
  match rev worklist with
  | [] => Ok loop_nodes
  | n :: rest =>
      match fuel with
      | O => Raise OutOfFuel
      | S fuel' =>
          if mem n loop_nodes then natural_loop fuel' g loop_nodes (rev rest)
          else natural_loop fuel' g (loop_nodes ++ [n]) (rev rest ++ predecessors g n)
      end
  end.
Definition count_edges (g : dgraph) : nat := list_sum (map (fun e => length (snd e)) g).
Definition find_natural_loop (g : dgraph) (u v : string) : result (list string) :=
  natural_loop (S (count_edges g)) g [v] [u].

(** src/graphs/cfg.py:85-89 *)
Definition remove_edges (es : list (string * string)) (g : dgraph) : dgraph :=
  map (fun e => (fst e, filter (fun v => negb (existsb (fun b => String.eqb (fst b) (fst e) && String.eqb (snd b) v) es)) (snd e))) g.
Definition compute_cfg_without_backward_edges (g : dgraph) : result dgraph :=
  do b <- find_back_edges g; Ok (remove_edges b g).

(** src/graphs/cfg.py:49-82.  [loops.sort] is stable: insertion sort. *)
Fixpoint insert_loop (l : string * list string) (ls : list (string * list string)) :=
  match ls with
  | [] => [l]
  | m :: ls' => if (length (snd l) <=? length (snd m))%nat then l :: ls else m :: insert_loop l ls'
  end.
Definition sort_loops (ls : list (string * list string)) := fold_right insert_loop [] ls.
Definition nesting_edges (bodies : list (string * list string)) : list (string * string) :=
  snd (fold_left (fun st hb => fold_left (fun st c => let '(seen, es) := st in
            if String.eqb c (fst hb) then (seen, es)
            else if mem c seen then (seen, es) else (c :: seen, es ++ [(fst hb, c)])) (snd hb) st)
        bodies ([], [])).
(** The forest: its header nodes and its edges. *)
Definition loop_nesting_forest (g : dgraph) : result (list string * list (string * string)) :=
  do back <- find_back_edges g;
  do loops <- map_result (fun e => do b <- find_natural_loop g (fst e) (snd e); Ok (snd e, b)) back;
  let bodies := fold_left (fun d hb => dict_set (fst hb) (snd hb) d) (sort_loops loops) [] in
  Ok (map fst bodies, nesting_edges bodies).
