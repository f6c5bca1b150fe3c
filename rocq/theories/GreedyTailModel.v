(** The last phases of the synthesizer, after the search:
    src/greedy/greedy_previous_param.py:1827-1837 and 1939-1963. *)
From Verif Require Import Base Lexical.

(** src/greedy/greedy_previous_param.py:1827-1837 ([reach] is a module
    global, set at line 1847 from MAX_STACK_DEPTH = 16,
    src/global_params/constants.py:1) *)
Definition check_dup_swap (reach : Z) (resids : list string) : result unit :=
  for_each (fun _ o =>
    if contains "SWAP" o then
      do n <- of_option (py_int (sdrop 4 o));
      do _ <- py_assert (1 <=? n)%Z; py_assert (n <=? reach)%Z
    else if contains "DUP" o then
      do n <- of_option (py_int (sdrop 3 o));
      do _ <- py_assert (1 <=? n)%Z; py_assert (n <=? reach)%Z
    else Ok tt) resids tt.

(** One of the two parallel lists is [r] (opcode names), the other [rid]
    (ids); the caller asserts that they have equal length (line 1876), so they
    are modelled as a list of pairs (name, id).

    src/greedy/greedy_previous_param.py:1946-1962: the loop.  [fr] is kept
    reversed, so [fr[j]] is its head ([j = len(fr) - 1] always). *)
Fixpoint useless_loop (fr : list (string * string)) (r : list (string * string))
  : list (string * string) :=
  match r with
  | [] => rev fr
  | x :: r' =>
      match fr with
      | [] => (* unreachable in the code: fr is refilled at once (l. 1951-1955) *)
          useless_loop [x] r'
      | y :: fr' =>
          if String.eqb (fst y) "SWAP1" && String.eqb (fst x) "SWAP1" then
            match fr' with
            | [] => match r' with
                    | [] => []
                    | x' :: r'' => useless_loop [x'] r''
                    end
            | _ => useless_loop fr' r'
            end
          else if String.eqb (fst y) "DUP1" && String.eqb (fst x) "SWAP1" then
            useless_loop fr r'
          else useless_loop (x :: fr) r'
      end
  end.

(** src/greedy/greedy_previous_param.py:1939-1963 *)
Definition remove_useless (r : list (string * string)) : list (string * string) :=
  match r with
  | [] => r
  | [_] => r
  | x :: r' => useless_loop [x] r'
  end.

(** src/greedy/greedy_previous_param.py:1859-1936: what happens to the
    sequences returned by the search.  [r] is the result of the search for the
    plain target, [ext] that for the extended target (only when junk is
    allowed, line 1878); each comes with the outcome of
    [check_dependencies] / [accept] on it, which are parameters here.
    [None] = an AssertionError was caught at line 1929, [Raise] = another
    exception escapes. *)
Definition greedy_tail_body (reach : Z) (r : list (string * string)) (deps_ok acc : bool)
  (ext : option (list (string * string) * bool)) : result (list (string * string)) :=
  do _ <- py_assert deps_ok;
  do _ <- check_dup_swap reach (map snd r);
  let r1 := remove_useless r in
  do ext1 <- match ext with
             | None => Ok None
             | Some (re, acc_e) =>
                 do _ <- check_dup_swap reach (map snd re);
                 Ok (Some (remove_useless re, acc_e))
             end;
  match ext1 with
  | Some (re1, true) =>
      if acc && (length re1 <? length r1) then Ok re1 else Ok r1
  | _ => Ok r1
  end.
Definition greedy_tail (reach : Z) (r : list (string * string)) (deps_ok acc : bool)
  (ext : option (list (string * string) * bool)) : result (option (list (string * string))) :=
  match greedy_tail_body reach r deps_ok acc ext with
  | Ok l => Ok (Some l)
  | Raise AssertionError => Ok None
  | Raise e => Raise e
  end.
