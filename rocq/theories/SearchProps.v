(** Properties of the search of the synthesizer (C54). *)
From Verif Require Import Base Lexical SymExecModel AsmModel FootprintSpec.
From Verif Require CheckerProofs PermutProps GreedyTailModel GreedyTailProofs LexicalProofs.
From Verif Require Import PermutModel SearchModel SearchSpec SearchProofs.
Open Scope string_scope. Open Scope list_scope. Open Scope Z_scope.

(** ** The order of the operations *)
Definition place_of (ui : list instr) (id : string) : nat := match index_of id (map i_id ui) with Some n => n | None => 0%nat end.
Lemma place_of_nth ui : NoDup (map i_id ui) -> forall n i, nth_error ui n = Some i -> place_of ui (i_id i) = n.
Proof.
  unfold place_of. induction ui as [|k l IH]; intros N [|n] i E; try discriminate; cbn [map index_of nth_error] in *.
  - injection E as ->. rewrite String.eqb_refl. reflexivity.
  - inversion N as [|? ? Nk Nl]; subst. specialize (IH Nl n i E). destruct (String.eqb_spec (i_id k) (i_id i)) as [Q|Q].
    + exfalso. apply Nk. rewrite Q. apply in_map. eapply nth_error_In; eauto.
    + destruct (index_of (i_id i) (map i_id l)) eqn:X; cbn in *; [congruence|].
      exfalso. assert (In (i_id i) (map i_id l)) as Hi by (apply in_map; eapply nth_error_In; eauto).
      clear -Hi X. induction (map i_id l) as [|y m IHm]; [destruct Hi|]. cbn in *. destruct (String.eqb_spec y (i_id i)); [discriminate|].
      destruct (index_of (i_id i) m); [discriminate|]. destruct Hi; auto.
Qed.
Lemma ordered ui : well_formed ui -> forall i j x, In i ui -> In j ui -> In x (i_inpt i) -> In x (i_outpt j) ->
  (place_of ui (i_id j) < place_of ui (i_id i))%nat.
Proof.
  intros W i j x Hi Hj Ii Oj. apply In_nth_error in Hi as [n Hn]. apply In_nth_error in Hj as [m Hm].
  rewrite (place_of_nth _ (wf_ids _ W) _ _ Hn), (place_of_nth _ (wf_ids _ W) _ _ Hm).
  pose proof (CheckerProofs.defs_before_uses_nth _ _ _ (wf_order _ W) Hn x Ii) as Q.
  destruct (Nat.lt_ge_cases m n) as [L|L]; [exact L|]. exfalso. apply Q. unfold outputs. apply in_flat_map. exists j. split; [|exact Oj].
  apply nth_error_In with (n := (m - n)%nat). rewrite SearchProofs.nth_error_skip. replace (n + (m - n))%nat with m by lia. exact Hm.
Qed.
Lemma same_table ui (B : nat -> Prop) rank : table ui rank B ui.
Proof. unfold table. induction ui; constructor; auto. left. reflexivity. Qed.

(** ** The search *)
(** The instructions after a search: some commutative ones have their operands exchanged. *)
Definition up_to_commutation (ui tbl : list instr) : Prop :=
  Forall2 (fun i j => j = i \/ (i_comm i = true /\ j = reversed i)) ui tbl.
Lemma intact_up ui rank tbl : intact ui rank tbl <-> up_to_commutation ui tbl.
Proof.
  unfold intact, table, up_to_commutation. split; intros H; (induction H as [|i j l t V _ IH]; constructor; [|exact IH]).
  - destruct V as [-> | [-> [V|[]]]]; auto.
  - destruct V as [-> | [C ->]]; [left|right]; auto.
Qed.
Definition no_zero_swap (ids : list string) : Prop := forall z, In (swap_name z) ids -> 1 <= z.

(** Whatever the operations pending, their order and the counts of uses the
    search begins with: when it returns, the validator runs the ids on the source
    stack and obtains the target stack.  That no SWAP0 is among them is checked
    by the synthesizer afterwards (below). *)
Theorem search_reaches_target fuel P pending nostore g ui ops tbl :
  search fuel P pending nostore g = Ok (ops, tbl) ->
  well_formed ui -> up_to_commutation ui (g_tbl g) ->
  all_plain (g_initial P) -> all_plain (g_final P) -> all_plain pending ->
  no_zero_swap (map snd ops) ->
  run_symbolic (map snd ops) ui (g_initial P) = Ok (g_final P) /\ up_to_commutation ui tbl.
Proof.
  intros E W T PI PF PP Z.
  destruct (search_runs ui W (place_of ui) (ordered ui W) fuel P pending nostore g ops tbl E) as [R T']; auto.
  { apply intact_up. exact T. }
  split; [apply R|]. eapply intact_up. exact T'.
Qed.
Print Assumptions search_reaches_target.

Lemma lstrip_last c m : is_space c = false -> exists m', lstrip (m ++ [c]) = m' ++ [c].
Proof.
  intros N. induction m as [|x m [m' IH]]; cbn; [rewrite N; exists []; reflexivity|].
  destruct (is_space x); [exists m'; exact IH|exists (x :: m); reflexivity].
Qed.
Lemma py_digits_nonneg : forall l acc b n, py_digits l acc b = Some n -> 0 <= acc -> 0 <= n.
Proof.
  induction l as [|c l IH]; cbn [py_digits]; intros acc b n E A; [destruct b; [injection E as <-; exact A|discriminate]|].
  destruct (digit_of c) as [d|] eqn:D; [|destruct (_ && _); [eapply IH; eauto|discriminate]].
  eapply IH; [exact E|]. unfold digit_of in D. destruct (_ && _); [injection D as <-|discriminate]. lia.
Qed.
Lemma py_int_negative s n : py_int (String "-" s) = Some n -> n <= 0.
Proof.
  unfold py_int, strip. cbn [list_ascii_of_string]. replace (lstrip ("-"%char :: list_ascii_of_string s)) with ("-"%char :: list_ascii_of_string s) by reflexivity.
  cbn [rev]. destruct (lstrip_last "-"%char (rev (list_ascii_of_string s)) eq_refl) as [m' ->]. rewrite rev_app_distr. cbn [rev app].
  rewrite Ascii.eqb_refl. destruct (py_digits (rev m') 0 false) as [k|] eqn:K; [|discriminate]. cbn. intros E. injection E as <-.
  apply py_digits_nonneg in K; lia.
Qed.
Lemma check_no_zero reach ids : GreedyTailModel.check_dup_swap reach ids = Ok tt -> no_zero_swap ids.
Proof.
  intros C z Hz. destruct (GreedyTailProofs.check_dup_swap_depth _ _ C _ Hz) as (n & D & B). { left. apply LexicalProofs.startswith_app. }
  unfold GreedyTailProofs.depth_of, swap_name in D. rewrite LexicalProofs.startswith_app in D.
  change (sdrop 4 ("SWAP" ++ str_Z z)) with (str_Z z) in D. destruct (Z_lt_le_dec z 0) as [L|L].
  - exfalso. destruct z as [|p|p]; try lia. unfold str_Z in D. cbn [Z.to_int DecimalString.NilZero.string_of_int] in D.
    apply py_int_negative in D. lia.
  - rewrite PermutProps.py_int_str in D by exact L. injection D as <-. lia.
Qed.

(** ** The synthesizer *)
(** A search for the target [tgt] from the source [src] with some plan: what is
    pending, in which order, how often each value is needed. *)
Definition searched (ui : list instr) (src tgt : list string) (ops : list op) (tbl' : list instr) : Prop :=
  exists fuel P pending nostore g,
    g_initial P = src /\ g_final P = tgt /\ g_tbl g = ui /\ all_plain pending /\
    search fuel P pending nostore g = Ok (ops, tbl').
(** With junk allowed there is a second search, for the target followed by the
    source; it begins with the instructions as the first left them
    (src/greedy/greedy_previous_param.py:1878-1897). *)
Definition searched_again (tbl : list instr) (src tgt : list string) (ext : option (list op * bool)) : Prop :=
  match ext with
  | None => True
  | Some (ops, _) => exists tbl', searched tbl src (tgt ++ src) ops tbl'
  end.

(** Full property: when the synthesizer returns a sequence for a block, running
    it on the source stack leaves the target stack (and, where junk is allowed,
    possibly more below). *)
Theorem synthesizer_reaches_target ui src tgt r tbl ext reach deps_ok acc ids :
  well_formed ui -> all_plain src -> all_plain tgt ->
  searched ui src tgt r tbl -> searched_again tbl src tgt ext ->
  GreedyTailModel.greedy_tail reach r deps_ok acc ext = Ok (Some ids) ->
  exists junk, run_symbolic (map snd ids) ui src = Ok (tgt ++ junk) /\ (junk = [] \/ (ext <> None /\ junk = src)).
Proof.
  intros W PS PT (fuel & P & pending & nostore & g & <- & <- & G & PP & E) S2 T.
  unfold GreedyTailModel.greedy_tail in T. destruct (GreedyTailModel.greedy_tail_body reach r deps_ok acc ext) as [l|[]] eqn:B; try discriminate.
  injection T as ->. unfold GreedyTailModel.greedy_tail_body in B. apply bind_ok in B as ([] & _ & B). apply bind_ok in B as ([] & C & B).
  assert (SM : intact ui (place_of ui) (g_tbl g)) by (rewrite G; apply same_table).
  destruct (search_runs ui W (place_of ui) (ordered ui W) fuel P pending nostore g r tbl E SM PS PT PP (check_no_zero _ _ C)) as [(R1 & _ & N1) T1].
  assert (A1 : run_symbolic (map snd (GreedyTailModel.remove_useless r)) ui (g_initial P) = Ok (g_final P ++ [])).
  { rewrite app_nil_r. apply GreedyTailProofs.remove_useless_symbolic; auto. }
  apply bind_ok in B as (ext1 & X & B). destruct ext as [[re ae]|].
  - apply bind_ok in X as ([] & Ce & X). injection X as <-.
    assert (A2 : run_symbolic (map snd (GreedyTailModel.remove_useless re)) ui (g_initial P) = Ok (g_final P ++ g_initial P)).
    { destruct S2 as (tbl' & fuel2 & P2 & pending2 & nostore2 & g2 & I2 & F2 & G2 & PP2 & E2). subst tbl.
      destruct (search_runs ui W (place_of ui) (ordered ui W) fuel2 P2 pending2 nostore2 g2 re tbl' E2 T1) as [(R2 & _ & N2) _].
      - rewrite I2. exact PS.
      - rewrite F2. intros x Hx. apply in_app_iff in Hx as [Hx|Hx]; auto.
      - exact PP2.
      - exact (check_no_zero _ _ Ce).
      - rewrite I2, F2 in R2. apply GreedyTailProofs.remove_useless_symbolic; auto. }
    destruct ae; [destruct (acc && _)|]; injection B as <-; try (exists []; split; [exact A1|auto]; fail).
    exists (g_initial P). split; [exact A2|]. right. split; [discriminate|reflexivity].
  - injection X as <-. injection B as <-. exists []. split; [exact A1|auto].
Qed.
Print Assumptions synthesizer_reaches_target.

(** So the first assertion of the validator holds of every result; what it
    still checks is the order of the operations that depend on each other and
    that those with effects appear once. *)
Theorem validator_stack_assertion_holds s r tbl ext reach deps_ok acc ids :
  well_formed (s_instrs s) -> all_plain (s_src s) -> all_plain (s_tgt s) ->
  searched (s_instrs s) (s_src s) (s_tgt s) r tbl -> searched_again tbl (s_src s) (s_tgt s) ext ->
  GreedyTailModel.greedy_tail reach r deps_ok acc ext = Ok (Some ids) ->
  let junk := match ext with None => false | Some _ => true end in
  check_execution_from_ids s (map snd ids) junk
  = (do d <- check_deps (map snd ids) (s_deps s); do _ <- py_assert d; do _ <- check_counts (map snd ids) (s_instrs s); Ok true).
Proof.
  intros W PS PT S1 S2 T junk. destruct (synthesizer_reaches_target _ _ _ _ _ _ _ _ _ _ W PS PT S1 S2 T) as (jk & R & J).
  unfold check_execution_from_ids. rewrite R. cbn [bind].
  assert (Q : (if junk then firstn (length (s_tgt s)) (s_tgt s ++ jk) else s_tgt s ++ jk) = s_tgt s).
  { unfold junk. destruct ext.
    - rewrite firstn_app, firstn_all, Nat.sub_diag. apply app_nil_r.
    - destruct J as [-> | [J _]]; [apply app_nil_r|congruence]. }
  rewrite Q. assert (L : forall l : list string, list_eqb l l = true).
  { induction l as [|x l IH]; cbn; [reflexivity|]. rewrite String.eqb_refl. exact IH. }
  rewrite L. reflexivity.
Qed.
Print Assumptions validator_stack_assertion_holds.

(** ** A block that meets the hypotheses *)
(** let s0 := add(a, b)  let s1 := sub(s0, b)  mstore(32, s1), from the stack a
    b to the stack s1 b: the operands of the subtraction, which is not
    commutative, have to be exchanged. *)
Module SearchExample.
Definition mk (id dis : string) (ins outs : list string) (comm st : bool) (v : option (list pyval)) : instr :=
  {| i_id := id; i_disasm := dis; i_inpt := ins; i_outpt := outs; i_comm := comm; i_storage := st; i_value := v |}.
Definition ui : list instr :=
  [mk "PUSH_0" "PUSH" [] ["s9"] false false (Some [PInt 32]); mk "ADD_0" "ADD" ["a"; "b"] ["s0"] true false None;
   mk "SUB_0" "SUB" ["s0"; "b"] ["s1"] false false None; mk "MSTORE_0" "MSTORE" ["s9"; "s1"] [] false true None].
Definition src : list string := ["a"; "b"].
Definition plan (tgt : list string) (swaps : Z) : setup :=
  {| g_reach := 16; g_final := tgt; g_initial := src; g_dup_pushes := []; g_size := (fun _ => 2); g_func_deps := []; g_max_swap := swaps |}.
Definition start (needs : list (string * Z)) (tbl : list instr) : gstate :=
  {| g_tbl := tbl; g_need := needs; g_dup := 0; g_todo := []; g_done := [] |}.
Definition found (r : result (list op * list instr)) : list op := match r with Ok (l, _) => l | Raise _ => [] end.
Definition left (r : result (list op * list instr)) : list instr := match r with Ok (_, t) => t | Raise _ => [] end.

Definition run1 := search 40 (plan ["s1"; "b"] 2) ["MSTORE_0"] [] (start [("a", 1); ("b", 3); ("s0", 1); ("s1", 2)] ui).
Example found1 : map snd (found run1)
  = ["DUP2"; "SWAP1"; "ADD_0"; "DUP2"; "SWAP1"; "SUB_0"; "DUP1"; "PUSH_0"; "MSTORE_0"].
Proof. vm_compute. reflexivity. Qed.
Lemma ui_wf : well_formed ui.
Proof. apply well_formedb_ok. vm_compute. reflexivity. Qed.
Lemma plain_all l : forallb plainb l = true -> all_plain l.
Proof. rewrite forallb_forall. intros H x Hx. apply plainb_ok. auto. Qed.
Lemma run1_searched : searched ui src ["s1"; "b"] (found run1) (left run1).
Proof.
  exists 40%nat, (plan ["s1"; "b"] 2), ["MSTORE_0"], [], (start [("a", 1); ("b", 3); ("s0", 1); ("s1", 2)] ui).
  split; [reflexivity|]. split; [reflexivity|]. split; [reflexivity|].
  split; [apply plain_all; vm_compute; reflexivity|]. vm_compute. reflexivity.
Qed.
Definition kept : list string :=
  ["DUP2"; "SWAP1"; "ADD_0"; "DUP2"; "SWAP1"; "SUB_0"; "DUP1"; "PUSH_0"; "MSTORE_0"].
Example search_reaches_target_applies :
  run_symbolic kept ui src = Ok ["s1"; "b"].
Proof.
  destruct (search_reaches_target 40 (plan ["s1"; "b"] 2) ["MSTORE_0"] [] (start [("a", 1); ("b", 3); ("s0", 1); ("s1", 2)] ui) ui (found run1) (left run1))
    as [R _]; [vm_compute; reflexivity|exact ui_wf| | | | | |unfold kept; rewrite <- found1; exact R].
  - apply (intact_up ui (fun _ => 0%nat)). apply same_table.
  - apply plain_all. vm_compute. reflexivity.
  - apply plain_all. vm_compute. reflexivity.
  - apply plain_all. vm_compute. reflexivity.
  - apply (check_no_zero 16). vm_compute. reflexivity.
Qed.

(** The same block from the stack a b c d to the stack s1, where junk is
    allowed: the second search finds a shorter sequence, which leaves the source
    below the target. *)
Definition wide : list string := ["a"; "b"; "c"; "d"].
Definition plan2 (tgt : list string) (swaps : Z) : setup :=
  {| g_reach := 16; g_final := tgt; g_initial := wide; g_dup_pushes := []; g_size := (fun _ => 2); g_func_deps := []; g_max_swap := swaps |}.
Definition start2 := start [("a", 1); ("b", 2); ("s0", 1); ("s1", 2)] ui.
Definition run2 := search 40 (plan2 ["s1"] 2) ["MSTORE_0"] [] start2.
Definition start3 := start [("a", 2); ("b", 3); ("c", 1); ("d", 1); ("s0", 1); ("s1", 2)] (left run2).
Definition run3 := search 40 (plan2 ("s1" :: wide) 3) ["MSTORE_0"] [] start3.
Definition spec : sfs := {| s_src := wide; s_tgt := ["s1"]; s_instrs := ui; s_deps := [] |}.
Definition result2 := GreedyTailModel.greedy_tail 16 (found run2) true true (Some (found run3, true)).
Definition kept2 : list op :=
  [same "DUP2"; same "DUP2"; ("ADD", "ADD_0"); same "DUP3"; same "SWAP1"; ("SUB", "SUB_0"); same "DUP1"; ("PUSH", "PUSH_0"); ("MSTORE", "MSTORE_0")].
Lemma wide_plain : all_plain wide.
Proof. apply plain_all. vm_compute. reflexivity. Qed.
Lemma run2_searched : searched ui wide ["s1"] (found run2) (left run2).
Proof.
  exists 40%nat, (plan2 ["s1"] 2), ["MSTORE_0"], [], start2. split; [reflexivity|]. split; [reflexivity|]. split; [reflexivity|].
  split; [apply plain_all; vm_compute; reflexivity|]. vm_compute. reflexivity.
Qed.
Lemma run3_searched : searched_again (left run2) wide ["s1"] (Some (found run3, true)).
Proof.
  exists (left run3), 40%nat, (plan2 ("s1" :: wide) 3), ["MSTORE_0"], [], start3. split; [reflexivity|]. split; [reflexivity|]. split; [reflexivity|].
  split; [apply plain_all; vm_compute; reflexivity|]. vm_compute. reflexivity.
Qed.
Example synthesizer_reaches_target_applies :
  exists junk, run_symbolic (map snd kept2) ui wide = Ok (["s1"] ++ junk).
Proof.
  destruct (synthesizer_reaches_target ui wide ["s1"] (found run2) (left run2) (Some (found run3, true)) 16 true true kept2) as (junk & R & _);
    [exact ui_wf|exact wide_plain|apply plain_all; vm_compute; reflexivity|exact run2_searched|exact run3_searched|vm_compute; reflexivity|eauto].
Qed.
Example validator_stack_assertion_holds_applies : check_execution_from_ids spec (map snd kept2) true = Ok true.
Proof.
  rewrite (validator_stack_assertion_holds spec (found run2) (left run2) (Some (found run3, true)) 16 true true kept2);
    [vm_compute; reflexivity|exact ui_wf|exact wide_plain|apply plain_all; vm_compute; reflexivity|exact run2_searched|exact run3_searched|vm_compute; reflexivity].
Qed.
End SearchExample.
