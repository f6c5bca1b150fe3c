(** Choice of the stack layouts of all the blocks of a component:
    src/liveness/layout_generation.py:69-380. *)
From Verif Require Import Base UtilModel LiveModel CfgModel LayoutModel UnifyModel.
Open Scope string_scope. Open Scope list_scope.

(** src/liveness/liveness_state.py:34-50: live variables and extra values before
    and after a block. *)
Record live_info := { lv_in : list string; lv_in_extra : list string; lv_out : list string; lv_out_extra : list string }.
Definition in_vars (l : live_info) : list string := union (lv_in l) (lv_in_extra l).
Definition out_vars (l : live_info) : list string := union (lv_out l) (lv_out_extra l).
Definition lives := list (string * live_info).

(** The fields of a LayoutGeneration object, lines 71-125.  Computed elsewhere
    and arbitrary here: the liveness, the depths of the variables
    ([_variable_order]), the levels in the dominator tree ([_block_depth]), the
    blocks in the loop nesting forest, the paths in the dominator tree
    ([nx.has_path] and [nx.shortest_path]) and the graph [_cfg_graph]. *)
Record layout_env := {
  le_blocks : list (string * cblock);
  le_start : string;
  le_previous : string -> string;
  le_inputs : list string;
  le_main : bool;
  le_junk : bool;
  le_loops : list string;
  le_order : list (string * depth_info);
  le_depth : list (string * nat);
  le_path : string -> string -> option (list string);
  le_succs : string -> list string;
  le_preds : string -> list string
}.

(** src/parser/cfg_block.py:167-168 *)
Definition phi_instructions (b : cblock) : list linstr := filter is_phi (cb_instrs b).
(** [out_args[0]] of each, read in src/liveness/stack_layout_methods.py:242 *)
Definition phi_record (i : linstr) : result phi := do o <- of_option (hd_error (li_outs i)); Ok {| p_out := o; p_ins := li_ins i |}.

(** src/liveness/stack_layout_methods.py:78-95 *)
Definition unification := (string * list string * list linstr)%type.
Definition unification_block_dict (bs : list (string * cblock)) : list (string * unification) :=
  fold_left (fun d nb =>
      let '(name, b) := nb in
      if (1 <? length (cb_comes_from b))%nat then
        let info := (name, match cb_entries b with [] => cb_comes_from b | es => es end, phi_instructions b) in
        fold_left (fun d p => dict_set p info d) (cb_comes_from b) d
      else d) bs [].

(** layout_generation.py:127-128 *)
Definition can_have_junk (env : layout_env) (b : string) : bool := le_main env && negb (mem b (le_loops env)) && le_junk env.

(** lines 251-276 *)
Definition preserve_junk_dominance (env : layout_env) (b1 b2 : string) : option (list string) :=
  match le_path env b1 b2 with
  | None => None
  | Some path =>
      if (length path <? 6)%nat then Some path
      else
        let inside := removelast (tl path) in
        let num := length (filter (fun s => negb (can_have_junk env s)) (flat_map (le_succs env) inside)) in
        if (3 <? num)%nat then None else Some path
  end.

(** lines 323-336, the stack with its top at the end *)
Definition extend_live (vals : list string) (l : live_info) : live_info :=
  {| lv_in := lv_in l; lv_in_extra := union (lv_in_extra l) vals; lv_out := lv_out l; lv_out_extra := union (lv_out_extra l) vals |}.
Fixpoint propagate_loop (fuel : nat) (env : layout_env) (first : string) (vals stack traversed : list string) (lv : lives) : result lives :=
  match rev stack with
  | [] => Ok lv
  | b :: rest =>
      match fuel with
      | O => Raise OutOfFuel
      | S fuel' =>
          if mem b traversed || String.eqb b first then propagate_loop fuel' env first vals (rev rest) traversed lv
          else
            do l <- of_option (lookup b lv);
            propagate_loop fuel' env first vals (rev rest ++ le_preds env b) (b :: traversed) (dict_set b (extend_live vals l) lv)
      end
  end.
(** The loop runs at most once for each predecessor of each block. *)
Definition propagate_fuel (env : layout_env) (lv : lives) : nat := 1 + list_sum (map (fun p => length (le_preds env (fst p))) lv).
(** lines 299-336 *)
Definition preserve_stack_dominant_path (env : layout_env) (path out_stack_last values : list string) (lv : lives) : result lives :=
  do last <- of_option (hd_error (rev path));
  do first <- of_option (hd_error path);
  do l <- of_option (lookup last lv);
  let junk := nodup string_dec (filter (fun v => negb (mem v (out_vars l))) out_stack_last) in
  let combined := union (nodup string_dec values) junk in
  match combined with
  | [] => Ok lv
  | _ => propagate_loop (propagate_fuel env lv) env first combined [last] [] lv
  end.

(** [input_stacks], [output_stacks], the liveness (modified on the way) and the
    layouts given to [build_spec] for each block. *)
Record layouts := {
  ly_in : list (string * list string);
  ly_out : list (string * list string);
  ly_live : lives;
  ly_spec : list (string * (list string * list string))
}.

Definition combined_liveness (lv : lives) (next : string) (elements : list string) : result (list (string * list string)) :=
  do d <- for_each (fun d e => do l <- of_option (lookup e lv); Ok (dict_set e (out_vars l) d)) elements [];
  do l <- of_option (lookup next lv);
  Ok (dict_set next (in_vars l) d).

(** lines 142-167 *)
Definition input_stack_of (env : layout_env) (st : layouts) (id : string) (b : cblock) : result (list string) :=
  match cb_comes_from b with
  | [] => Ok (le_inputs env)
  | p :: _ =>
      let stacks := filter (fun q => match lookup q (ly_out st) with Some _ => true | None => false end) (cb_comes_from b) in
      if (1 <? length stacks)%nat then of_option (lookup id (ly_in st)) else of_option (lookup p (ly_out st))
  end.

(** lines 184-218.  Result: the layout of each predecessor, the layout the
    common successor starts with, and the liveness. *)
Definition unify (env : layout_env) (lv : lives) (id : string) (input : list string) (u : unification)
  : result (list string * list (string * list string) * lives) :=
  let '(next, elements, phi_instrs) := u in
  do live <- combined_liveness lv next elements;
  do phis <- map_result phi_record phi_instrs;
  do info <- of_option (lookup next (le_order env));
  let path := match elements with [e1; e2] => preserve_junk_dominance env e1 e2 | _ => None end in
  match path with
  | Some path =>
      do r <- unify_stacks_dominant next elements live phis info id input (can_have_junk env id);
      let '(combined, stacks, values) := r in
      do last <- of_option (hd_error (rev path));
      do out <- of_option (lookup last stacks);
      do lv' <- preserve_stack_dominant_path env path out values lv;
      Ok (combined, stacks, lv')
  | None =>
      do r <- unify_stacks_brothers next elements live phis info id input (can_have_junk env id);
      Ok (r, lv)
  end.

Definition final_stack_elements (b : cblock) : list string := match cb_split b with Some i => li_outs i | None => [] end.
Definition split_in_args (b : cblock) : list string := match cb_split b with Some i => li_ins i | None => [] end.
Definition ends_program (t : string) : bool := mem t ["terminal"; "mainExit"].

(** [output_stacks.update(d)] *)
Definition dict_update {A} (d d' : list (string * A)) : list (string * A) := fold_left (fun d kv => dict_set (fst kv) (snd kv) d) d' d.

(** lines 130-249: one block.  [build_spec] is in SpecModel.v; here only the
    layouts it is given are recorded. *)
Definition construct_block (env : layout_env) (udict : list (string * unification)) (st : layouts) (id : string) (b : cblock) : result layouts :=
  do l <- of_option (lookup id (ly_live st));
  do input0 <- input_stack_of env st id b;
  let input := if can_have_junk env id then forget_values input0 (in_vars l) else input0 in
  let ins := dict_set id input (ly_in st) in
  let done out lout lin lv := Ok {| ly_in := lin; ly_out := lout; ly_live := lv;
                                    ly_spec := dict_set id (substitute_duplicates input, out) (ly_spec st) |} in
  let fresh :=
    do info <- of_option (lookup id (le_order env));
    if ends_program (cb_type b) || ends_program (le_previous env id) then
      do out <- propagate_output_stack input (final_stack_elements b) (in_vars l) (out_vars l) info (split_in_args b);
      done out (dict_set id out (ly_out st)) ins (ly_live st)
    else
      do oj <- output_stack_layout input (final_stack_elements b) (out_vars l) info (can_have_junk env id);
      done (fst oj) (dict_set id (firstn (snd oj) (fst oj)) (ly_out st)) ins (ly_live st) in
  match lookup id udict with
  | Some (next, elements, phis) =>
      if (1 <? length elements)%nat then
        match lookup id (ly_out st) with
        | Some out => done out (ly_out st) ins (ly_live st)
        | None =>
            do r <- unify env (ly_live st) id input (next, elements, phis);
            let '(combined, stacks, lv) := r in
            let lout := dict_update (ly_out st) stacks in
            do out <- of_option (lookup id lout);
            done out lout (dict_set next combined ins) lv
        end
      else fresh
  | None => fresh
  end.

(** Tuples in the heap are compared from left to right. *)
Definition entry := (nat * nat * string)%type.
Definition entry_le (a b : entry) : bool :=
  let '(d1, r1, n1) := a in let '(d2, r2, n2) := b in
  (d1 <? d2)%nat || ((d1 =? d2)%nat && ((r1 <? r2)%nat || ((r1 =? r2)%nat && (String.eqb n1 n2 || String.ltb n1 n2)))).
(** [heapq.heappop]: a least entry, and the others *)
Fixpoint pop_min (a : entry) (l : list entry) : entry * list entry :=
  match l with
  | [] => (a, [])
  | b :: l' => if entry_le a b then let (m, r) := pop_min a l' in (m, b :: r) else let (m, r) := pop_min b l' in (m, a :: r)
  end.

(** lines 338-376 *)
Fixpoint construct_loop (fuel : nat) (env : layout_env) (udict : list (string * unification)) (pending : list entry) (traversed : list string)
  (st : layouts) : result layouts :=
  match pending with
  | [] => Ok st
  | e :: es =>
      match fuel with
      | O => Raise OutOfFuel
      | S fuel' =>
          let '((_, depth, id), rest) := pop_min e es in
          if mem id traversed then construct_loop fuel' env udict rest traversed st
          else
            do b <- of_option (lookup id (le_blocks env));
            do st' <- construct_block env udict st id b;
            do new <- for_each (fun new s => if mem s (id :: traversed) then Ok new else
                                   do d <- of_option (lookup s (le_depth env)); Ok (new ++ [(d, S depth, s)])) (successors b) [];
            construct_loop fuel' env udict (rest ++ new) (id :: traversed) st'
      end
  end.
(** Each block adds at most its successors to the heap. *)
Definition construct_fuel (env : layout_env) : nat := 1 + list_sum (map (fun nb => length (successors (snd nb))) (le_blocks env)).
Definition construct_code_from_block_list (env : layout_env) (lv : lives) : result layouts :=
  construct_loop (construct_fuel env) env (unification_block_dict (le_blocks env)) [(0, 0, le_start env)] []
    {| ly_in := []; ly_out := []; ly_live := lv; ly_spec := [] |}.
