(** Model of the final phase of the synthesizer, which permutes and cleans the
    stack: src/greedy/greedy_previous_param.py:1385-1591.  [reach] is the global
    variable of the module, [F] is [self._final_stack]. *)
From Verif Require Import Base Lexical AsmModel.
Open Scope string_scope. Open Scope list_scope. Open Scope Z_scope.

Definition len (l : list string) : Z := Z.of_nat (length l).
(** [l[i]], with Python's negative indices *)
Definition znth (l : list string) (i : Z) : option string :=
  if i <? 0 then (if i + len l <? 0 then None else nth_error l (Z.to_nat (i + len l))) else nth_error l (Z.to_nat i).
(** [l[a:b]] *)
Definition bound (l : list string) (i : Z) : nat := Z.to_nat (if i <? 0 then i + len l else Z.min i (len l)).
Definition slice (l : list string) (a b : Z) : list string := firstn (bound l b - bound l a)%nat (skipn (bound l a) l).
(** [[l[i]] + l[1:i] + [l[0]] + l[i+1:]] *)
Definition swap_top (l : list string) (i : Z) : result (list string) :=
  do x <- of_option (znth l i);
  do t <- of_option (znth l 0);
  Ok ([x] ++ slice l 1 i ++ [t] ++ slice l (i + 1) (len l)).
(** ['SWAP' + str(i)] *)
Definition swap_name (i : Z) : string := ("SWAP" ++ str_Z i)%string.

Definition zcount (x : string) (l : list string) : Z := Z.of_nat (count x l).
Definition zmem (z : Z) (l : list Z) : bool := existsb (Z.eqb z) l.
(** [if z in l: l.remove(z)] *)
Fixpoint discard (z : Z) (l : list Z) : list Z :=
  match l with [] => [] | y :: l' => if Z.eqb y z then l' else y :: discard z l' end.
(** [l.remove(z)] *)
Definition remove_z (z : Z) (l : list Z) : option (list Z) := if zmem z l then Some (discard z l) else None.
(** [l.remove(x)] *)
Fixpoint remove_first (x : string) (l : list string) : option (list string) :=
  match l with [] => None | y :: l' => if String.eqb y x then Some l' else option_map (cons y) (remove_first x l') end.

(** [self._final_stack[p] == x]; wherever it is used the index is in range *)
Definition wants (F : list string) (p : Z) (x : string) : bool := match znth F p with Some y => String.eqb y x | None => false end.

(** src/greedy/greedy_previous_param.py:1385-1389: the positions of the target
    already in place *)
Fixpoint add_solved_upto (k : nat) (C F : list string) (solved : list Z) : list Z :=
  match k with
  | O => solved
  | S k' =>
      let solved' := add_solved_upto k' C F solved in
      let i := Z.of_nat k' in
      match znth C (- (i + 1)), znth F (- (i + 1)) with
      | Some x, Some y =>
          if String.eqb x y && negb (zmem (len F - 1 - i) solved') then solved' ++ [len F - 1 - i] else solved'
      | _, _ => solved'
      end
  end.
Definition add_solved (C F : list string) (solved : list Z) : list Z := add_solved_upto (Nat.min (length C) (length F)) C F solved.

(** src/greedy/greedy_previous_param.py:1408-1412: the loop runs over [n] positions *)
Fixpoint unsolved_from (n : nat) (F : list string) (v : string) (p m : Z) (solved : list Z) : result bool :=
  if p <? m then
    do skip <- (if zmem p solved then Ok true else do y <- of_option (znth F p); Ok (negb (String.eqb y v)));
    if skip : bool then
      match n with O => Ok false | S n' => unsolved_from n' F v (p + 1) m solved end
    else Ok true
  else Ok false.
Definition unsolved (F : list string) (v : string) (p : Z) (reach : nat) (solved : list Z) : result bool :=
  unsolved_from reach F v p (Z.min (p + Z.of_nat reach) (len F)) solved.

(** src/greedy/greedy_previous_param.py:1399-1406 *)
Definition wanted_somewhere (F C : list string) (solved : list Z) (r : string) : bool :=
  existsb (fun n => let i := Z.of_nat n in
    (Z.max 0 (len C - len F) <=? i) && negb (match znth C i with Some y => String.eqb y r | None => true end)
    && wants F (i - len C) r && negb (zmem (len F + i - len C) solved)) (seq 0 (length C)).
Definition get_register (F reg C : list string) (solved : list Z) : result string :=
  match find (wanted_somewhere F C solved) reg with Some r => Ok r | None => Raise AssertionError end.

(** The variables of the loop. *)
Record pstate := { p_c : list string; p_solved : list Z; p_reg : list string; p_lpos : Z; p_ids : list string }.

(** 1437-1438 *)
Fixpoint advance (n : nat) (C F : list string) (lpos : Z) : Z :=
  if (0 <=? len F + lpos) && (0 <=? len C + lpos) &&
     match znth C lpos, znth F lpos with Some x, Some y => String.eqb x y | _, _ => false end
  then match n with O => lpos | S n' => advance n' C F (lpos - 1) end
  else lpos.
(** 1450-1453 and 1504-1507: the last [i] at or below the given one *)
Fixpoint search_down (F : list string) (d : Z) (top : string) (solved : list Z) (i : nat) : nat :=
  match i with
  | O => O
  | S i' => if (0 <=? d + Z.of_nat i) && (zmem (d + Z.of_nat i) solved || negb (wants F (d + Z.of_nat i) top))
            then search_down F d top solved i' else i
  end.
(** 1462-1465 and 1538-1540: the first index, from [j], of an element with more copies than needed *)
Fixpoint search_garbage (all F : list string) (j : nat) (rest : list string) : nat :=
  match rest with
  | [] => j
  | x :: rest' => if zcount x all =? zcount x F then search_garbage all F (S j) rest' else j
  end.
Definition garbage (reach : nat) (all F C : list string) : option nat :=
  let j := search_garbage all F 1 (firstn reach (tl C)) in
  if (j <=? reach)%nat && (j <? length C)%nat then Some j else None.
(** 1571-1573: the first index, from [i], neither solved nor equal to the top *)
Fixpoint search_other (d : Z) (top : string) (solved : list Z) (i : nat) (rest : list string) : nat :=
  match rest with
  | [] => i
  | x :: rest' => if zmem (d + Z.of_nat i) solved || String.eqb top x then search_other d top solved (S i) rest' else i
  end.

(** 1428-1436: the registers on top of the stack *)
Fixpoint get_all (rs : list string) (reg C ids : list string) : result (list string * list string * list string) :=
  match rs with
  | [] => Ok (reg, C, ids)
  | r :: rs' =>
      do reg' <- of_option (remove_first r reg);
      get_all rs' reg' (r :: C) (ids ++ [vget_id r])
  end.

(** Moves of the loop. *)
Definition swap_move (i : Z) (solved : list Z) (st : pstate) : result pstate :=
  do C' <- swap_top (p_c st) i;
  Ok {| p_c := C'; p_solved := solved; p_reg := p_reg st; p_lpos := p_lpos st; p_ids := p_ids st ++ [swap_name i] |}.
Definition save_top (top : string) (rest : list string) (solved : list Z) (st : pstate) : pstate :=
  {| p_c := rest; p_solved := solved; p_reg := p_reg st ++ [top]; p_lpos := p_lpos st;
     p_ids := p_ids st ++ [if mem top (p_reg st) then "POP" else vset_id top] |}.
Definition load_register (F : list string) (st : pstate) : result pstate :=
  do r <- get_register F (p_reg st) (p_c st) (p_solved st);
  do reg' <- of_option (remove_first r (p_reg st));
  Ok {| p_c := r :: p_c st; p_solved := p_solved st; p_reg := reg'; p_lpos := p_lpos st; p_ids := p_ids st ++ [vget_id r] |}.

(** 1439-1589: one iteration after the initial checks.  [top :: rest] is the
    stack, [all] are the elements of the stack and of the registers. *)
Definition permut_step (reach : nat) (F all : list string) (top : string) (rest : list string) (st : pstate) : result pstate :=
  let C := p_c st in
  let solved := p_solved st in
  let lpos := p_lpos st in
  let d := len F - len C in
  let R := Z.of_nat reach in
  let not_top := discard d solved in
  if zcount top F <? zcount top all then                                                            (* 1439-1443 *)
    Ok {| p_c := rest; p_solved := solved; p_reg := p_reg st; p_lpos := lpos; p_ids := p_ids st ++ ["POP"] |}
  else
  do in_place <- (if (0 <=? d) && negb (zmem d solved) && wants F d top
                  then do u <- unsolved F top (d + 1) reach solved; Ok (negb u) else Ok false);         (* 1444 *)
  if in_place : bool then                                                                               (* 1445-1447 *)
    Ok {| p_c := C; p_solved := solved ++ [d]; p_reg := p_reg st; p_lpos := lpos; p_ids := p_ids st |}
  else
  do misplaced <- (if negb (zmem d solved) then Ok true else unsolved F top (d + 1) reach solved);      (* 1448 *)
  if misplaced : bool then                                                                              (* 1449-1535 *)
    let i := search_down F d top solved (Nat.min reach (length C - 1)) in
    if (1 <=? i)%nat && (0 <=? d + Z.of_nat i) then                                                 (* 1454-1461 *)
      swap_move (Z.of_nat i) (discard d (solved ++ [d + Z.of_nat i])) st
    else
      match garbage reach all F C with
      | Some j => swap_move (Z.of_nat j) not_top st                                                 (* 1466-1471 *)
      | None =>
          do near <- (if len C + lpos <=? R
                      then do w <- of_option (znth F lpos); Ok (mem w (slice C 0 lpos)) else Ok false);  (* 1474 *)
          if near : bool then                                                                              (* 1475-1485 *)
            do w <- of_option (znth F lpos);
            do _ <- py_assert (negb (String.eqb top w));
            do s <- of_option (index_of w rest);
            let spos := Z.of_nat s + 1 in
            swap_move spos (discard d (discard (d + spos) solved)) st
          else if R <=? len C + lpos then                                                           (* 1486-1524 *)
            if (i =? 0)%nat then Ok (save_top top rest not_top st)
            else
              let u := len C - len F - 1 in
              let k := if (1 <? u) && (u <? Z.of_nat i)
                       then (match search_down F d top solved (Z.to_nat u) with O => i | k => k end) else i in
              do st' <- swap_move (Z.of_nat k) (discard d (discard (d + Z.of_nat k) solved)) st;
              match p_c st' with
              | top' :: rest' => Ok (save_top top' rest' (p_solved st') st')
              | [] => Raise OtherError
              end
          else                                                                                      (* 1526-1535 *)
            do st' <- load_register F st;
            do _ <- py_assert (negb (zmem (len F - len (p_c st')) (p_solved st')));
            Ok st'
      end
  else
    match garbage reach all F C with
    | Some j => swap_move (Z.of_nat j) not_top st                                                   (* 1541-1546 *)
    | None =>
        if R <=? len C + lpos then Ok (save_top top rest not_top st)                                (* 1548-1560 *)
        else
          do w <- of_option (znth F lpos);
          if String.eqb w top then                                                                  (* 1561-1569 *)
            do C' <- swap_top C (len C + lpos);
            do solved' <- of_option (remove_z (len F - len C') solved);
            swap_move (len C + lpos) (solved' ++ [len F + lpos]) st
          else
            let i0 := Z.to_nat (Z.max 1 (len C - len F)) in
            let i := search_other d top solved i0 (firstn (reach + 1 - i0) (skipn i0 C)) in
            if (i <=? reach)%nat && (i <? length C)%nat then
              do solved' <- of_option (remove_z d solved);
              swap_move (Z.of_nat i) solved' st                                                     (* 1574-1580 *)
            else
              do _ <- py_assert (len C + lpos <? R);                                                (* 1583-1589 *)
              load_register F st
    end.

(** 1423-1427: the checks at the beginning of an iteration *)
Definition enough (F all : list string) : bool :=
  (len F <=? len all) && forallb (fun x => zcount x F <=? zcount x all) F.

(** 1414-1591.  The lists of opcodes and of ids are equal, one is kept. *)
Fixpoint permut_loop (fuel : nat) (reach : nat) (F : list string) (st : pstate) : result (list string) :=
  if list_eqb (p_c st) F then
    do _ <- py_assert (match p_reg st with [] => true | _ => false end); Ok (p_ids st)
  else
    let C := p_c st in
    let all := p_reg st ++ C in
    do _ <- py_assert (enough F all);
    if (len C <=? len F) && list_eqb C (slice F (- len C) (len F)) then
      do out <- get_all (rev (firstn (length F - length C) F)) (p_reg st) C (p_ids st);
      let '(reg', C', ids') := out in
      do _ <- py_assert (list_eqb C' F && match reg' with [] => true | _ => false end);
      Ok ids'
    else
      match C with
      | [] => Raise OtherError
      | top :: rest =>
          match fuel with
          | O => Raise OutOfFuel
          | S f =>
              do st' <- permut_step reach F all top rest
                          {| p_c := C; p_solved := p_solved st; p_reg := p_reg st; p_lpos := advance (length F) C F (p_lpos st); p_ids := p_ids st |};
              permut_loop f reach F st'
          end
      end.
Definition compute_permut_and_clean (fuel reach : nat) (F C : list string) (solved : list Z) : result (list string) :=
  permut_loop fuel reach F {| p_c := C; p_solved := solved; p_reg := []; p_lpos := -1; p_ids := [] |}.
