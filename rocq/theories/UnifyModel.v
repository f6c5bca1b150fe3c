(** Unifying the layouts of blocks with a common successor:
    src/liveness/stack_layout_methods.py:233-444. *)
From Verif Require Import Base UtilModel LayoutModel.
Open Scope string_scope. Open Scope list_scope.

(** A PhiFunction instruction: [out_args[0]] and [in_args]. *)
Record phi := { p_out : string; p_ins : list string }.

(** [phi_func]: for each predecessor, a dictionary from results to arguments. *)
Definition phi_dict := list (string * list (string * string)).
Definition inner (pf : phi_dict) (p : string) : list (string * string) := match lookup p pf with Some d => d | None => [] end.
Definition phi_set (pf : phi_dict) (p v a : string) : phi_dict := dict_set p (dict_set v a (inner pf p)) pf.

(** lines 239-242; [zip] stops at the shortest list *)
Definition phi_of_functions (preds : list string) (phis : list phi) : phi_dict :=
  fold_left (fun pf f => fold_left (fun pf ap => phi_set pf (snd ap) (p_out f) (fst ap)) (combine (p_ins f) preds) pf) phis [].

Definition live_of (live : list (string * list string)) (b : string) : result (list string) := of_option (lookup b live).

(** lines 251-253.  The order of a Python set is arbitrary: here the order of
    the list that stands for the live set. *)
Definition variables_to_remove (pf : phi_dict) (live_target live_pred : list string) (p : string) : list string :=
  filter (fun x => negb (mem x live_target || mem x (map snd (inner pf p)))) live_pred.

(** [itertools.zip_longest] with the fill value "bottom" *)
Definition zip_longest (ls : list (list string)) : list (list string) :=
  map (fun i => map (fun l => nth i l "bottom") ls) (seq 0 (list_max (map (@length string) ls))).

(** f"b{i}" *)
Definition pseudo (i : nat) : string := ("b" ++ str_nat i)%string.

(** src/liveness/stack_layout_methods.py:233-267 *)
Definition generate_phi_func (target : string) (preds : list string) (live : list (string * list string)) (phis : list phi)
  : result (phi_dict * list string) :=
  let pf := phi_of_functions preds phis in
  do lt <- live_of live target;
  do rem <- map_result (fun p => do lp <- live_of live p; Ok (variables_to_remove pf lt lp p)) preds;
  let rows := zip_longest rem in
  let names := map pseudo (seq 0 (length rows)) in
  Ok (fold_left (fun pf nr => fold_left (fun pf ap => phi_set pf (snd ap) (fst nr) (fst ap)) (combine (snd nr) preds) pf)
        (combine names rows) pf, names).

(** src/liveness/stack_layout_methods.py:270-297 ([live_vars] is not used) *)
Definition unify_stack_joint (p : string) (combined : list string) (pf : phi_dict) : list string :=
  map (fun v => match lookup v (inner pf p) with Some a => a | None => v end) combined.

(** src/liveness/stack_layout_methods.py:322-346, on the reversed stack *)
Fixpoint combined_loop (live_target : list string) (pf : list (string * string)) (added : list string) (rstack : list string) : list string :=
  match rstack with
  | [] => []
  | v :: rest =>
      if mem v live_target then v :: combined_loop live_target pf (v :: added) rest
      else match find (fun oi => String.eqb (snd oi) v && negb (mem (fst oi) added)) pf with
           | Some (o, _) => o :: combined_loop live_target pf (o :: added) rest
           | None => v :: combined_loop live_target pf added rest
           end
  end.
Definition generate_combined_block_from_original (original_in live_target : list string) (pf : list (string * string)) : list string :=
  rev (combined_loop live_target pf [] (rev original_in)).

(** The common part of lines 359-387 and 416-444: from the phi dictionary to
    the layouts. *)
Definition unify_with (pf : phi_dict) (names preds lt : list string) (info : depth_info) (original : string)
  (original_in : list string) (can_have_junk : bool) : result (list string * list (string * list string)) :=
  let live_p := lt ++ filter (fun x => negb (mem x lt)) names in
  let init := generate_combined_block_from_original original_in live_p (inner pf original) in
  do oj <- output_stack_layout init [] live_p (map (fun k => (k, [0%Z])) names ++ info) can_have_junk;
  let '(combined, junk_idx) := oj in
  let stacks := fold_left (fun d p => let s := unify_stack_joint p combined pf in
                   dict_set p (if String.eqb p original then s else firstn junk_idx s) d) preds [] in
  Ok (firstn junk_idx combined, stacks).

(** src/liveness/stack_layout_methods.py:349-387 *)
Definition unify_stacks_brothers (target : string) (preds : list string) (live : list (string * list string)) (phis : list phi)
  (info : depth_info) (original : string) (original_in : list string) (can_have_junk : bool)
  : result (list string * list (string * list string)) :=
  do pn <- generate_phi_func target preds live phis;
  let '(pf, names) := pn in
  do lt <- live_of live target;
  unify_with pf names preds lt info original original_in can_have_junk.

(** src/liveness/stack_layout_methods.py:390-444; third component:
    [values_to_propagate] *)
Definition unify_stacks_dominant (target : string) (preds : list string) (live : list (string * list string)) (phis : list phi)
  (info : depth_info) (original : string) (original_in : list string) (can_have_junk : bool)
  : result (list string * list (string * list string) * list string) :=
  do pn <- generate_phi_func target preds live phis;
  let '(pf, names) := pn in
  do _ <- py_assert (forallb (fun va => negb (String.eqb (snd va) "bottom")) (inner pf original));
  let fill := fun (v a : string) => if String.eqb a "bottom" then lookup v (inner pf original) else Some a in
  do pf' <- map_result (fun bd => if String.eqb (fst bd) original then Ok bd else
              do d <- map_result (fun va => do a <- of_option (fill (fst va) (snd va)); Ok (fst va, a)) (snd bd); Ok (fst bd, d)) pf;
  let values := flat_map (fun bd => if String.eqb (fst bd) original then [] else
                  flat_map (fun va => if String.eqb (snd va) "bottom"
                     then match lookup (fst va) (inner pf original) with Some a => [a] | None => [] end else []) (snd bd)) pf in
  do lt <- live_of live target;
  do r <- unify_with pf' names preds lt info original original_in can_have_junk;
  Ok (r, values).
