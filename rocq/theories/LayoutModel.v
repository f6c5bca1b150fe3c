(** Stack layouts: src/liveness/utils.py, src/liveness/stack_layout_methods.py,
    src/liveness/layout_generation.py.  Stacks go from top to bottom; [None] is
    a hole.  Sets of variables are lists; Python sets have no repetitions, which
    the theorems state where it matters. *)
From Verif Require Import Base UtilModel.
Open Scope string_scope. Open Scope list_scope.

Definition is_none {A} (o : option A) : bool := match o with None => true | Some _ => false end.
Definition holes {A} (l : list (option A)) : nat := length (filter is_none l).
(** [[element for element in l if element is not None]] *)
Definition somes {A} (l : list (option A)) : list A := flat_map (fun o => match o with Some x => [x] | None => [] end) l.

(** src/liveness/utils.py:27-37 *)
Fixpoint drop_nones {A} (l : list (option A)) : list (option A) :=
  match l with None :: l' => drop_nones l' | _ => l end.
Definition trim_none {A} (l : list (option A)) : list (option A) * nat :=
  let final_list := drop_nones l in (final_list, holes final_list).

(** src/liveness/utils.py:40-56.  The two indices go down from the ends, hence
    the recursion on the reversed lists; the result is the updated list and what
    is left of the second one, both reversed. *)
Fixpoint fill_holes {A} (ro : list (option A)) (rs : list A) : list (option A) * list A :=
  match ro, rs with
  | [], _ => ([], rs)
  | _, [] => (ro, [])
  | None :: ro', s :: rs' => let '(o, r) := fill_holes ro' rs' in (Some s :: o, r)
  | Some x :: ro', _ => let '(o, r) := fill_holes ro' rs in (Some x :: o, r)
  end.
Definition combine_lists_with_order {A} (original_list : list (option A)) (second_list : list A) : list (option A) :=
  let '(o, r) := fill_holes (rev original_list) (rev second_list) in map Some (rev r) ++ rev o.

(** src/liveness/utils.py:59-74: [ro] is what is left above index [j], deepest
    first, so that [j + 1] is its length. *)
Fixpoint longest_none (ro : list (option string)) (current best_count : Z) (best_idx : nat) : nat * Z :=
  match ro with
  | [] => (best_idx, best_count)
  | o :: ro' =>
      let current := if is_none o then (current + 1)%Z else (current - 1)%Z in
      if (best_count <? current)%Z then longest_none ro' current current (length ro')
      else longest_none ro' current best_count best_idx
  end.
Definition find_longest_none_sequence (l : list (option string)) : nat * Z := longest_none (rev l) 0 0 (length l).

(** src/liveness/utils.py:77-95.  The indices are Python ints: [j] is written
    as [j' = j + 1], a natural number, so that [i <= j] is [i < j']. *)
Fixpoint merge_loop {A} (fuel : nat) (i j' : nat) (l : list (option A)) : result (list (option A)) :=
  match fuel with
  | O => Raise OutOfFuel
  | S fuel' =>
      if (i <? j')%nat then
        match nth_error l i, nth_error l (j' - 1) with
        | Some None, Some _ => merge_loop fuel' (i + 1) j' l
        | Some (Some x), Some None => merge_loop fuel' (i + 1) (j' - 1) (set_nth (j' - 1) (Some x) l)
        | Some (Some _), Some (Some _) => merge_loop fuel' i (j' - 1) l
        | _, _ => Raise OtherError
        end
      else Ok (skipn i l)
  end.
Definition merge_list_swapping_topmost {A} (l : list (option A)) : result (list (option A)) :=
  merge_loop (S (length l)) 0 (length l) l.

(** src/liveness/utils.py:98-125 *)
Definition combine_lists_with_junk (original_list : list (option string)) (second_list : list string) (can_have_junk : bool)
  : result (list (option string) * nat) :=
  let '(new_bottom, elements_to_emerge, junk_negative_idx) :=
    if can_have_junk then
      let '(junk_idx, _) := find_longest_none_sequence original_list in
      (firstn junk_idx original_list, somes (skipn junk_idx original_list), length original_list - junk_idx)
    else (original_list, [], 0) in
  do merged <- merge_list_swapping_topmost (combine_lists_with_order new_bottom (second_list ++ elements_to_emerge));
  Ok (merged, junk_negative_idx).

(** Sorting key of src/liveness/stack_layout_methods.py:126: the tuple of the
    dictionary, [(-1,)] by default, then the name.  Tuples are compared
    lexicographically. *)
Definition depth_info := list (string * list Z).
Fixpoint tuple_cmp (a b : list Z) : comparison :=
  match a, b with
  | [], [] => Eq
  | [], _ => Lt
  | _, [] => Gt
  | x :: a', y :: b' => match (x ?= y)%Z with Eq => tuple_cmp a' b' | c => c end
  end.
Definition key_of (info : depth_info) (x : string) : list Z := match lookup x info with Some t => t | None => [(-1)%Z] end.
Definition key_le (info : depth_info) (x y : string) : bool :=
  match tuple_cmp (key_of info x) (key_of info y) with
  | Lt => true
  | Gt => false
  | Eq => match String.compare x y with Gt => false | _ => true end
  end.
Fixpoint insert_var (info : depth_info) (x : string) (l : list string) : list string :=
  match l with
  | [] => [x]
  | y :: l' => if key_le info x y then x :: l else y :: insert_var info x l'
  end.
Definition sort_vars (info : depth_info) (l : list string) : list string := fold_right (insert_var info) [] l.

(** src/liveness/stack_layout_methods.py:110-118, on the reversed stack *)
Fixpoint keep_deepest (live seen : list string) (rstack : list string) : list (option string) :=
  match rstack with
  | [] => []
  | v :: rest =>
      if mem v live && negb (mem v seen) then Some v :: keep_deepest live (v :: seen) rest
      else None :: keep_deepest live seen rest
  end.
Definition mem_opt (x : string) (l : list (option string)) : bool := mem x (somes l).

(** The list has no hole: [None] is not a stack element. *)
Fixpoint no_holes (l : list (option string)) : result (list string) :=
  match l with
  | [] => Ok []
  | Some x :: l' => do r <- no_holes l'; Ok (x :: r)
  | None :: _ => Raise OtherError
  end.

(** src/liveness/stack_layout_methods.py:98-148.  A hole left in the result
    would be a [None] in the layout; here it is an error, which the theorems
    exclude. *)
Definition output_stack_layout (input_stack final_stack_elements live_vars : list string) (variable_depth_info : depth_info)
  (can_have_junk : bool) : result (list string * nat) :=
  let '(bottom, num_nones) := trim_none (rev (keep_deepest live_vars [] (rev input_stack))) in
  let vars_to_place := filter (fun x => negb (mem x final_stack_elements || mem_opt x bottom)) live_vars in
  let sorted := sort_vars variable_depth_info vars_to_place in
  if (num_nones <=? length sorted)%nat then
    do b <- no_holes (combine_lists_with_order bottom sorted);
    Ok (final_stack_elements ++ b, length b + length final_stack_elements)
  else
    do cj <- combine_lists_with_junk bottom sorted can_have_junk;
    let '(c, junk_size) := cj in
    do b <- no_holes c;
    let junk_idx := length b in
    let b := if (0 <? junk_size)%nat then b ++ skipn (length input_stack - junk_size) input_stack else b in
    Ok (final_stack_elements ++ b, junk_idx + length final_stack_elements).

(** src/liveness/stack_layout_methods.py:151-166.  [i] counts up from 1. *)
Fixpoint overlap_loop (lst1 lst2 live : list string) (i steps overlap_len : nat) : nat :=
  match steps with
  | O => overlap_len
  | S steps' =>
      match nth_error lst2 (i - 1) with
      | Some x => if mem x live then overlap_len
                  else overlap_loop lst1 lst2 live (i + 1) steps'
                         (if list_eqb (skipn (length lst1 - i) lst1) (firstn i lst2) then i else overlap_len)
      | None => overlap_len
      end
  end.
Definition max_tail_head_overlap (lst1 lst2 live : list string) : nat :=
  overlap_loop lst1 lst2 live 1 (Nat.min (length lst1) (length lst2)) 0.

(** src/liveness/stack_layout_methods.py:456-463, from the bottom *)
Fixpoint drop_dead (live : list string) (rstack : list string) : list string :=
  match rstack with
  | [] => []
  | v :: rest => if mem v live then rstack else drop_dead live rest
  end.
Definition forget_values (input_stack live_vars : list string) : list string := rev (drop_dead live_vars (rev input_stack)).

(** src/liveness/stack_layout_methods.py:448-453 *)
Definition joined_stack (combined live : list string) : list string := map (fun x => if mem x live then x else "bottom") combined.

(** src/liveness/layout_generation.py:36-46, on the reversed stack *)
Fixpoint subst_dups (added : list string) (rstack : list string) : list string :=
  match rstack with
  | [] => []
  | v :: rest => if mem v added then ("a" ++ str_nat (length added))%string :: subst_dups added rest
                 else v :: subst_dups (v :: added) rest
  end.
Definition substitute_duplicates (input_stack : list string) : list string := rev (subst_dups [] (rev input_stack)).

(** src/liveness/stack_layout_methods.py:197-230.  [i + 1] on exit of the first
    loop, from the bottom: [n] is the number of elements above the candidate. *)
Fixpoint deepest_live (live : list string) (rstack : list string) : nat :=
  match rstack with
  | [] => 0
  | v :: rest => if (length rstack <=? 16)%nat then length rstack
                 else if mem v live then length rstack else deepest_live live rest
  end.
(** the inner [while], lines 210-215; the count is what is left to remove *)
Fixpoint pop_dead (live : list string) (stack : list string) (n : nat) {struct n} : result (list string * nat) :=
  match n with
  | O => Ok (stack, 0)
  | S n' => match stack with
            | [] => Raise OtherError
            | v :: rest => if mem v live then Ok (stack, n) else pop_dead live rest n'
            end
  end.
(** lines 218-220 *)
Fixpoint find_dead (live : list string) (stack : list string) (j : nat) : result nat :=
  match j with
  | O => Ok 0
  | S j' => do v <- of_option (nth_error stack j); if mem v live then find_dead live stack j' else Ok j
  end.
Fixpoint prune_loop (fuel : nat) (live : list string) (stack : list string) (to_remove : nat) : result (list string) :=
  match fuel with
  | O => Raise OutOfFuel
  | S fuel' =>
      do sn <- pop_dead live stack to_remove;
      let '(stack, n) := sn in
      match n with
      | O => Ok stack
      | S _ =>
          do j <- find_dead live stack (Nat.min 15 (length stack));
          if (j =? 0)%nat then Ok stack
          else
            do a <- of_option (nth_error stack j); do b <- of_option (nth_error stack 0);
            prune_loop fuel' live (set_nth 0 a (set_nth j b stack)) n
      end
  end.
Definition remove_till_accessible (input_stack live_vars : list string) : result (list string) :=
  let to_remove := deepest_live live_vars (rev input_stack) - 16 in
  if (0 <? to_remove)%nat then prune_loop (S (S to_remove)) live_vars input_stack to_remove else Ok input_stack.

(** src/liveness/stack_layout_methods.py:169-194 *)
Definition propagate_output_stack (input_stack final_stack_elements in_live_vars live_vars : list string)
  (variable_depth_info : depth_info) (split_in_args : list string) : result (list string) :=
  do bottom <- (if (16 <=? length input_stack)%nat then remove_till_accessible input_stack in_live_vars else Ok input_stack);
  let vars_to_place := filter (fun x => negb (mem x final_stack_elements || mem x bottom)) live_vars in
  let bottom := sort_vars variable_depth_info vars_to_place ++ bottom in
  let overlap := match final_stack_elements, vars_to_place with
                 | [], [] => max_tail_head_overlap split_in_args bottom live_vars
                 | _, _ => 0
                 end in
  Ok (final_stack_elements ++ skipn overlap bottom).
