(** Repair of unreachable stack elements with memory registers:
    src/reparation/{utils,insert_placeholders,colour_assignment,tree_scan,repair_unreachable}.py *)
From Verif Require Import Base Lexical SymExecModel AsmModel DepsModel SpecModel UtilModel WebModel.
Open Scope string_scope. Open Scope list_scope.

(* ------------------------------------------------------------------ *)
(** ** Pseudo instructions *)

(** Python's [s[:-1]] *)
Fixpoint sinit (s : string) : string :=
  match s with
  | EmptyString => EmptyString
  | String c EmptyString => EmptyString
  | String c s' => String c (sinit s')
  end.
(** Python's [s.split(",")] *)
Fixpoint split_comma (s : string) : list string :=
  match s with
  | EmptyString => [""]
  | String c s' =>
      if Ascii.eqb c ","%char then "" :: split_comma s'
      else match split_comma s' with w :: ws => String c w :: ws | [] => [String c ""] end
  end.

(** src/reparation/utils.py:6-13 *)
Definition extract_value (s : string) : option string :=
  if startswith "VGET" s then Some (sinit (sdrop 5 s))
  else if startswith "VSET" s then Some (sinit (sdrop 5 s))
  else if startswith "DUP-VSET" s then hd_error (split_comma (sinit (sdrop 9 s)))
  else None.
(** src/reparation/utils.py:16-18 *)
Definition extract_dup_pos (s : string) : result Z :=
  do _ <- py_assert (startswith "DUP-VSET" s);
  do p <- of_option (nth_error (split_comma (sinit (sdrop 9 s))) 1);
  of_option (py_int p).

(* ------------------------------------------------------------------ *)
(** ** Blocks and the dominator tree *)

(** src/greedy/greedy_info.py:43, the set [last_use]: positions of ids,
    pairs (-1, v) and pairs (-2, v). *)
Record last_uses := { lu_pos : list nat; lu_args : list string; lu_copies : list string }.
Definition no_uses : last_uses := {| lu_pos := []; lu_args := []; lu_copies := [] |}.

(** The fields of a block the repair reads: its phi functions (defined
    variable, arguments), [entries], [successors], and the ids, [virtual_copies]
    (keys), [phi_defs_to_solve], [reachable] and [last_use] of its GreedyInfo
    (src/greedy/greedy_info.py:20-47).  The ids are those after the insertion
    of the DUP-VSETs (src/reparation/insert_placeholders.py:266-272): see
    PlaceModel. *)
Record rblock := {
  rb_name : string;
  rb_phis : list (string * list string);
  rb_entries : list string;
  rb_succs : list string;
  rb_ids : list string;
  rb_copies : list string;
  rb_solve : list string;
  rb_reach : list (string * (nat * nat * bool));
  rb_last : last_uses
}.
Definition with_last (b : rblock) (l : last_uses) : rblock :=
  {| rb_name := rb_name b; rb_phis := rb_phis b; rb_entries := rb_entries b; rb_succs := rb_succs b; rb_ids := rb_ids b;
     rb_copies := rb_copies b; rb_solve := rb_solve b; rb_reach := rb_reach b; rb_last := l |}.

(** The dominator tree, every node with its block. *)
Inductive dtree := DNode (b : rblock) (children : list dtree).

(** src/reparation/insert_placeholders.py:288-292 *)
Definition mark_copies (copies : list string) (st : list string * last_uses) : list string * last_uses :=
  fold_left (fun st v => let '(used, l) := st in
    if mem v used then st
    else (v :: used, {| lu_pos := lu_pos l; lu_args := lu_args l; lu_copies := v :: lu_copies l |})) copies st.
(** src/reparation/insert_placeholders.py:296-301: from the last id to the first *)
Definition mark_gets (ids : list string) (st : list string * last_uses) : list string * last_uses :=
  fold_left (fun st pi => let '(used, l) := st in let '(pos, id) := (pi : nat * string) in
    if startswith "VGET" id then
      match extract_value id with
      | Some v => if mem v used then st
                  else (v :: used, {| lu_pos := pos :: lu_pos l; lu_args := lu_args l; lu_copies := lu_copies l |})
      | None => st
      end
    else st) (rev (combine (seq 0 (length ids)) ids)) st.
(** src/reparation/insert_placeholders.py:303-309 *)
Definition mark_args (phis : list (string * list string)) (solve : list string) (st : list string * last_uses)
  : list string * last_uses :=
  fold_left (fun st phi =>
    if mem (fst phi) solve then
      fold_left (fun st a => let '(used, l) := st in
        if mem a used then st
        else (a :: used, {| lu_pos := lu_pos l; lu_args := a :: lu_args l; lu_copies := lu_copies l |})) (snd phi) st
    else st) phis st.
(** src/reparation/insert_placeholders.py:278-311.  Sets are lists. *)
Definition mark_last_uses (b : rblock) (already : list string) : rblock * list string :=
  let '(used, l) := mark_args (rb_phis b) (rb_solve b) (mark_gets (rb_ids b) (mark_copies (rb_copies b) (already, rb_last b))) in
  (with_last b l, used).
(** src/reparation/insert_placeholders.py:230-275, the part that concerns the
    last uses: children first, the union of what they use, then the block. *)
Fixpoint mark_tree (t : dtree) : dtree * list string :=
  match t with
  | DNode b ch =>
      let rs := map mark_tree ch in
      let '(b', used) := mark_last_uses b (concat (map snd rs)) in
      (DNode b' (map fst rs), used)
  end.

(* ------------------------------------------------------------------ *)
(** ** Colours *)

(** src/reparation/colour_assignment.py:14-18 and
    src/reparation/tree_scan.py:29-32: the assignment, the number of colours,
    the colours used by each phi class, and the classes (which [find_set]
    compresses).  [uncolour_var] is never called, so colours are naturals. *)
Record colouring := {
  k_color : list (string * nat);      (* _var2color *)
  k_total : nat;                      (* _total_colors *)
  k_class : list (nat * list nat);    (* _phi_class2colors *)
  k_webs : webs                       (* _phi_webs *)
}.
Definition set_color (v : string) (c : nat) (k : colouring) : colouring :=
  {| k_color := dict_set v c (k_color k); k_total := k_total k; k_class := k_class k; k_webs := k_webs k |}.

Fixpoint first_available (l : list bool) : option nat :=
  match l with
  | [] => None
  | true :: _ => Some 0
  | false :: l' => option_map S (first_available l')
  end.
(** src/reparation/colour_assignment.py:35-58 *)
Definition pick_available_colour (v : string) (available : list bool) (k : colouring) : nat * list bool * colouring :=
  match first_available available with
  | Some i => (i, set_nth i false available, set_color v i k)
  | None =>
      let new := length available in
      (new, available ++ [false],
       {| k_color := dict_set v new (k_color k); k_total := Nat.max (k_total k) (new + 1); k_class := k_class k; k_webs := k_webs k |})
  end.
(** src/reparation/colour_assignment.py:60-70.  When the list is too short the
    extension with False makes the assertion fail. *)
Definition pick_specific_colour (v : string) (available : list bool) (color : nat) (k : colouring)
  : result (list bool * colouring) :=
  match nth_error available color with
  | Some true => Ok (set_nth color false available, set_color v color k)
  | _ => Raise AssertionError
  end.
(** src/reparation/colour_assignment.py:75-76 *)
Definition release_colour (v : string) (available : list bool) (k : colouring) : result (list bool) :=
  match lookup v (k_color k) with
  | Some c => if (c <? length available)%nat then Ok (set_nth c true available) else Raise OtherError
  | None => Raise OtherError
  end.
(** src/reparation/colour_assignment.py:85-86 *)
Definition is_coloured (v : string) (k : colouring) : bool :=
  match lookup v (k_color k) with Some _ => true | None => false end.
(** src/reparation/colour_assignment.py:24-26 *)
Definition num_regs (k : colouring) : nat := length (nodup Nat.eq_dec (map snd (k_color k))).

Fixpoint class_colors (c : nat) (d : list (nat * list nat)) : option (list nat) :=
  match d with [] => None | (c', l) :: d' => if (c' =? c)%nat then Some l else class_colors c d' end.
Fixpoint class_add (c color : nat) (d : list (nat * list nat)) : list (nat * list nat) :=
  match d with
  | [] => []
  | (c', l) :: d' => if (c' =? c)%nat then (c', l ++ [color]) :: d' else (c', l) :: class_add c color d'
  end.

(** src/reparation/tree_scan.py:92-94: the loop does not stop at the first
    colour it takes. *)
Fixpoint bias_loop (v : string) (colors : list nat) (available : list bool) (k : colouring) : result (list bool * colouring) :=
  match colors with
  | [] => Ok (available, k)
  | c :: colors' =>
      do a <- of_option (nth_error available c);
      if (a : bool) then do r <- pick_specific_colour v available c k; let '(available', k') := r in bias_loop v colors' available' k'
      else bias_loop v colors' available k
  end.
(** src/reparation/tree_scan.py:83-101 *)
Definition biased_pick_color (v : string) (available : list bool) (k : colouring) : result (list bool * colouring) :=
  match lookup v (w_class (k_webs k)) with
  | Some _ =>
      do f <- find_set (k_webs k) v; let '(cls, w) := f in
      do colors <- of_option (class_colors cls (k_class k));
      let k0 := {| k_color := k_color k; k_total := k_total k; k_class := k_class k; k_webs := w |} in
      do r <- bias_loop v (rev colors) available k0; let '(available1, k1) := r in
      let '(new, available2, k2) := pick_available_colour v available1 k1 in
      Ok (available2, {| k_color := k_color k2; k_total := k_total k2; k_class := class_add cls new (k_class k2); k_webs := k_webs k2 |})
  | None => let '(_, available', k') := pick_available_colour v available k in Ok (available', k')
  end.

(** src/reparation/tree_scan.py:45-57 *)
Definition assign_phi (last : last_uses) (solve : list string) (st : list bool * colouring) (phi : string * list string)
  : result (list bool * colouring) :=
  if mem (fst phi) solve then
    let '(available, k) := st in
    do available1 <- for_each (fun av a => if mem a (lu_args last) && is_coloured a k then release_colour a av k else Ok av) (snd phi) available;
    biased_pick_color (fst phi) available1 k
  else Ok st.
(** src/reparation/tree_scan.py:60-71.  Simplification: an id that contains
    "VSET" without starting with VSET or DUP-VSET (Python colours the variable
    [None]) raises here. *)
Definition assign_id (last : last_uses) (st : list bool * colouring) (pi : nat * string) : result (list bool * colouring) :=
  let '(available, k) := st in
  let '(pos, id) := pi in
  if startswith "VGET" id then
    if existsb (Nat.eqb pos) (lu_pos last) then
      do v <- of_option (extract_value id);
      do available' <- release_colour v available k; Ok (available', k)
    else Ok st
  else if contains "VSET" id then
    do v <- of_option (extract_value id); biased_pick_color v available k
  else Ok st.
(** src/reparation/tree_scan.py:41-77 *)
Definition assign_block (b : rblock) (st : list bool * colouring) : result (list bool * colouring) :=
  do st1 <- for_each (assign_phi (rb_last b) (rb_solve b)) (rb_phis b) st;
  do st2 <- for_each (assign_id (rb_last b)) (combine (seq 0 (length (rb_ids b))) (rb_ids b)) st1;
  for_each (fun st v => let '(available, k) := st in
    if mem v (lu_copies (rb_last b)) then do available' <- release_colour v available k; Ok (available', k) else Ok st)
    (rb_copies b) st2.
(** src/reparation/tree_scan.py:40-81: the children get a copy of [available]
    and share the assignment. *)
Fixpoint assign_tree (t : dtree) (available : list bool) (k : colouring) : result colouring :=
  match t with
  | DNode b ch =>
      do st <- assign_block b (available, k);
      (fix go (ch : list dtree) (k : colouring) : result colouring :=
         match ch with
         | [] => Ok k
         | t' :: ch' => do k' <- assign_tree t' (fst st) k; go ch' k'
         end) ch (snd st)
  end.

(** src/reparation/phi_webs.py:43-49 and src/reparation/tree_scan.py:32 *)
Definition empty_classes (w : webs) : list (nat * list nat) :=
  map (fun p => (fst p, [])) (filter (fun p => (0 <? snd p)%nat) (combine (seq 0 (length (w_nelems w))) (w_nelems w))).
(** src/reparation/tree_scan.py:103-111 *)
Definition tree_scan (t : dtree) (w : webs) (num_colors_max : nat) : result colouring :=
  assign_tree t (repeat true num_colors_max) {| k_color := []; k_total := 0; k_class := empty_classes w; k_webs := w |}.

(* ------------------------------------------------------------------ *)
(** ** Emission *)

(** src/reparation/tree_scan.py:214-217 *)
Definition assign_colours_to_constants (num_colors : nat) (max_constant : string) : result (list string) :=
  do base <- of_option (py_int16 max_constant);
  Ok (map (fun i => hex_drop2 (base + 32 * Z.of_nat i)) (seq 0 num_colors)).

(** src/reparation/tree_scan.py:205-212 *)
Definition emit_vget (c : string) : list string := [("PUSH " ++ c)%string; "MLOAD"].
Definition emit_vset (c : string) : list string := [("PUSH " ++ c)%string; "MSTORE"].
Definition emit_dup_vset (c : string) (dup_pos : Z) : list string := ("DUP" ++ str_Z (dup_pos + 1))%string :: emit_vset c.

(** [color_to_constant[color_assignment.color(var)]] *)
Definition constant_of (constants : list string) (k : colouring) (v : string) : result string :=
  do c <- of_option (lookup v (k_color k)); of_option (nth_error constants c).

(** src/reparation/tree_scan.py:133-153 *)
Definition emit_id (constants : list string) (k : colouring) (id : string) : result (list string) :=
  if startswith "VGET" id then
    do v <- of_option (extract_value id); do c <- constant_of constants k v; Ok (emit_vget c)
  else if startswith "VSET" id then
    do v <- of_option (extract_value id); do c <- constant_of constants k v; Ok (emit_vset c)
  else if startswith "DUP-VSET" id then
    do v <- of_option (extract_value id); do p <- extract_dup_pos id;
    do c <- constant_of constants k v; Ok (emit_dup_vset c p)
  else Ok [id].

(** src/reparation/tree_scan.py:219-248.  A copy is (variable, (destination,
    source)), in the order of the dictionary. *)
Definition emit_copies (regs dups : list (string * (nat * nat))) (constants : list string) : result (list string) :=
  do loads <- map_result (fun c => do x <- of_option (nth_error constants (snd (snd c))); Ok (emit_vget x)) regs;
  do stores <- map_result (fun c => do x <- of_option (nth_error constants c); Ok (emit_vset x))
                 (fold_left (fun acc c => fst (snd c) :: acc) regs []);
  do dupped <- map_result (fun c => do x <- of_option (nth_error constants (fst (snd c)));
                                    Ok (emit_dup_vset x (Z.of_nat (snd (snd c)) + 1))) dups;
  Ok (concat loads ++ concat stores ++ concat dupped).

(** src/reparation/tree_scan.py:174-194: one phi function of a successor *)
Definition collect_phi (k : colouring) (b : rblock) (solve : list string) (entry : nat)
  (st : list (string * (nat * nat)) * list (string * (nat * nat))) (phi : string * list string)
  : result (list (string * (nat * nat)) * list (string * (nat * nat))) :=
  if mem (fst phi) solve then
    let '(regs, dups) := st in
    do a <- of_option (nth_error (snd phi) entry);
    do cd <- of_option (lookup (fst phi) (k_color k));
    match lookup a (k_color k) with
    | Some ca => Ok (if (ca =? cd)%nat then regs else dict_set a (cd, ca) regs, dups)
    | None =>
        do r <- of_option (lookup a (rb_reach b));
        let '(p, _, is_last) := r in
        do _ <- py_assert is_last;
        Ok (regs, dict_set a (cd, p) dups)
    end
  else Ok st.
(** src/reparation/tree_scan.py:160-194 *)
Definition collect_copies (k : colouring) (blocks : list (string * rblock)) (b : rblock)
  : result (list (string * (nat * nat)) * list (string * (nat * nat))) :=
  for_each (fun st s =>
    do sb <- of_option (lookup s blocks);
    match rb_entries sb with
    | [] => Ok st
    | _ =>
        do _ <- py_assert (match rb_phis sb with [] => false | _ => true end);
        do e <- of_option (index_of (rb_name b) (rb_entries sb));
        for_each (collect_phi k b (rb_solve sb) e) (rb_phis sb) st
    end) (rb_succs b) ([], []).
(** src/reparation/tree_scan.py:129-202: the new ids of a block *)
Definition emit_block (constants : list string) (k : colouring) (blocks : list (string * rblock)) (b : rblock) : result (list string) :=
  do ids <- map_result (emit_id constants k) (rb_ids b);
  do copies <- match rb_copies b with
               | [] => Ok []
               | _ => do rd <- collect_copies k blocks b; emit_copies (fst rd) (snd rd) constants
               end;
  Ok (concat ids ++ copies).

(** src/reparation/colour_assignment.py:32-33: [max] of an empty sequence raises *)
Definition next_constant (k : colouring) (constants : list string) : result string :=
  match k_color k with
  | [] => Raise OtherError
  | _ => of_option (nth_error constants (list_max (map snd (k_color k))))
  end.

(* ------------------------------------------------------------------ *)
(** ** All the block lists of an object *)

(** src/reparation/repair_unreachable.py:95-101, given the number of values and
    the colouring of the tree scan. *)
Definition repair_blocklist (l : nat * colouring) (max_constant : string) : result (list string * string) :=
  let '(num_vals, k) := l in
  if (0 <? num_vals)%nat then
    do constants <- assign_colours_to_constants num_vals max_constant;
    do used <- next_constant k constants;
    do z <- of_option (py_int16 used);
    Ok (constants, hex_drop2 (z + 32))
  else Ok ([], max_constant).

(** The first instruction of the start block: operation, literals, arguments. *)
Record first_ins := { fi_op : string; fi_literals : list string; fi_in : list string }.
(** src/reparation/repair_unreachable.py:104-116; [None] when no case applies *)
Definition get_first_constant (i : first_ins) : result (option string) :=
  if fi_op i =? "memoryguard" then
    do l <- of_option (hd_error (fi_literals i)); do z <- of_option (py_int l); Ok (Some (hex_drop2 z))
  else if fi_op i =? "push" then do l <- of_option (hd_error (fi_literals i)); Ok (Some (sdrop 2 l))
  else if fi_op i =? "mstore" then do a <- of_option (nth_error (fi_in i) 1); Ok (Some a)
  else Ok None.
(** src/reparation/repair_unreachable.py:133-139: the ids of the start block *)
Definition set_first_constant (new_constant : string) (ids : list string) : result (list string) :=
  match ids with
  | [] => Raise OtherError
  | first :: _ =>
      do _ <- py_assert (contains "PUSH" first);
      Ok (map (fun e => if e =? first then ("PUSH " ++ new_constant)%string else e) ids)
  end.

(** src/reparation/repair_unreachable.py:46-57: the functions, in order, [None]
    for those that need no repair.  The state is (original, maximum); the
    accumulator the constants of each repaired list. *)
Fixpoint repair_functions (i : first_ins) (original : option string) (max_constant : option string)
  (fs : list (option (nat * colouring))) : result (list (list string) * option string * option string) :=
  match fs with
  | [] => Ok ([], original, max_constant)
  | None :: fs' =>
      do r <- repair_functions i original max_constant fs';
      let '(cs, o, m) := r in Ok ([] :: cs, o, m)
  | Some l :: fs' =>
      do om <- (match original with
                | None => do m <- get_first_constant i; Ok (m, m)
                | Some _ => Ok (original, max_constant)
                end);
      do m <- of_option (snd om);
      do r <- repair_blocklist l m;
      do r' <- repair_functions i (fst om) (Some (snd r)) fs';
      let '(cs, o, m') := r' in Ok (fst r :: cs, o, m')
  end.
(** src/reparation/repair_unreachable.py:32-63: constants of the main block
    list and of the functions, and the ids of the start block.  A Python [None]
    maximum raises when it is read as a number. *)
Definition repair_object (i : first_ins) (main : option (nat * colouring)) (fs : list (option (nat * colouring))) (ids : list string)
  : result (list (list string) * list string) :=
  do r <- repair_functions i None None (main :: fs);
  let '(cs, o, m) := r in
  match o, m with
  | Some a, Some b => if a =? b then Ok (cs, ids) else do ids' <- set_first_constant b ids; Ok (cs, ids')
  | None, None => Ok (cs, ids)
  | _, Some b => do ids' <- set_first_constant b ids; Ok (cs, ids')
  | _, None => Raise OtherError
  end.
