(** C42: the layouts chosen for the blocks of a component fit along every edge. *)
From Verif Require Import Base UtilModel UtilProps LevelProps LiveModel CfgModel CfgProps LayoutModel LayoutProps UnifyModel UnifyProps LayoutGenModel LayoutGenSpec
  LayoutGenUnify LayoutGenProofs LayoutGenTotal.
Open Scope string_scope. Open Scope list_scope.

(** k := 2; n := 3; do { if (x == k) { z := x - 1 } ; ... } while (...): a loop
    whose body has a branch, with phi functions at both joins. *)
Definition li (op : string) (ins outs : list string) : linstr := {| li_op := op; li_ins := ins; li_outs := outs; li_lits := None |}.
Definition blk (instrs : list linstr) (split : option linstr) (type : string) (jump falls : option string) (from entries : list string) : cblock :=
  {| cb_instrs := instrs; cb_type := type; cb_jump_to := jump; cb_falls_to := falls; cb_cond := None; cb_comes_from := from;
     cb_entries := entries; cb_split := split |}.
Definition demo_blocks : list (string * cblock) :=
  [ ("Start", blk [li "LiteralAssignment" ["0x02"] ["k"]; li "LiteralAssignment" ["0x03"] ["n"]] None "falls_to" None (Some "Loop") [] []);
    ("Loop", blk [li "PhiFunction" ["n"; "y"] ["x"]; li "iszero" ["x"] ["c"]] (Some (li "JUMPI" ["1"; "c"] [])) "conditional" (Some "Exit") (Some "Body")
               ["Start"; "Next"] ["Start"; "Next"]);
    ("Body", blk [li "eq" ["x"; "k"] ["d"]] (Some (li "JUMPI" ["2"; "d"] [])) "conditional" (Some "Next") (Some "Extra") ["Loop"] []);
    ("Extra", blk [li "sub" ["x"; "0x01"] ["z"]] None "falls_to" None (Some "Next") ["Body"] []);
    ("Next", blk [li "PhiFunction" ["x"; "z"] ["y"]] (Some (li "JUMP" ["3"] [])) "unconditional" (Some "Loop") None ["Body"; "Extra"] ["Body"; "Extra"]);
    ("Exit", blk [li "sstore" ["k"; "x"] []] (Some (li "stop" [] [])) "terminal" None None ["Loop"] []) ].
Definition live_of (i o : list string) : live_info := {| lv_in := i; lv_in_extra := []; lv_out := o; lv_out_extra := [] |}.
Definition demo_live : lives :=
  [ ("Start", live_of [] ["n"; "k"]); ("Loop", live_of ["x"; "k"] ["x"; "k"]); ("Body", live_of ["x"; "k"] ["x"; "k"]);
    ("Extra", live_of ["x"; "k"] ["z"; "k"]); ("Next", live_of ["y"; "k"] ["y"; "k"]); ("Exit", live_of ["x"; "k"] []) ].
Definition demo_env : layout_env := {|
  le_blocks := demo_blocks; le_start := "Start"; le_previous := fun _ => ""; le_inputs := []; le_main := true; le_junk := true;
  le_loops := ["Loop"; "Body"; "Extra"; "Next"];
  le_order := map (fun nb => (fst nb, [("x", [1%Z]); ("k", [2%Z])])) demo_blocks;
  le_depth := [("Start", 0); ("Loop", 1); ("Body", 2); ("Exit", 2); ("Extra", 3); ("Next", 3)];
  le_path := fun a b => if (String.eqb a "Start" && String.eqb b "Next")%bool then Some ["Start"; "Loop"; "Body"; "Next"]
                        else if (String.eqb a "Body" && String.eqb b "Extra")%bool then Some ["Body"; "Extra"] else None;
  le_succs := fun x => match lookup x demo_blocks with Some b => successors b | None => [] end;
  le_preds := fun x => match lookup x demo_blocks with Some b => cb_comes_from b | None => [] end |}.
Definition env_of (bs : list (string * cblock)) (start : string) (depth : list (string * nat)) (path : string -> string -> option (list string)) : layout_env := {|
  le_blocks := bs; le_start := start; le_previous := fun _ => ""; le_inputs := []; le_main := true; le_junk := false; le_loops := [];
  le_order := map (fun nb => (fst nb, [])) bs; le_depth := depth; le_path := path;
  le_succs := fun x => match lookup x bs with Some b => successors b | None => [] end;
  le_preds := fun x => match lookup x bs with Some b => cb_comes_from b | None => [] end |}.

(** if c { let w := gas() if w { revert(w, w) } } stop, the end of the inner
    [if] joined to the end of the outer one. *)
Definition guard_blocks : list (string * cblock) :=
  [ ("Start", blk [li "calldatasize" [] ["c"]] (Some (li "JUMPI" ["1"; "c"] [])) "conditional" (Some "Then") (Some "After") [] []);
    ("Then", blk [li "gas" [] ["w"]] (Some (li "JUMPI" ["2"; "w"] [])) "conditional" (Some "Revert") (Some "After") ["Start"] []);
    ("Revert", blk [] (Some (li "revert" ["w"; "w"] [])) "terminal" None None ["Then"] []);
    ("After", blk [] (Some (li "stop" [] [])) "terminal" None None ["Start"; "Then"] []) ].
Definition guard_live : lives :=
  [ ("Start", live_of [] []); ("Then", live_of [] ["w"]); ("Revert", live_of ["w"] []); ("After", live_of [] []) ].
Definition guard_env := env_of guard_blocks "Start" [("Start", 0); ("Then", 1); ("Revert", 2); ("After", 1)]
  (fun a b => if (String.eqb a "Start" && String.eqb b "Then")%bool then Some ["Start"; "Then"] else None).

(** Decides each condition by cases on the blocks. *)
Lemma not_reserved u : (match u with String c _ => negb (Ascii.eqb c "b"%char) | EmptyString => true end) = true -> ~ reserved u.
Proof. intros H (i & ->). cbn in H. discriminate. Qed.
Ltac at_block H := unfold block_at in H; apply lookup_In in H; cbn [le_blocks demo_env demo_blocks guard_env guard_blocks env_of In] in H;
  repeat match type of H with _ \/ _ => destruct H as [H|H] end; try contradiction; injection H as ? ?; subst.
Ltac each_in H := cbn in H; repeat match type of H with _ \/ _ => destruct H as [H|H] end; try (destruct H; fail); subst.

Lemma demo_component : component_ok demo_env demo_live.
Proof.
  constructor.
  - cbn. repeat constructor; cbn; intuition discriminate.
  - intros x b s B I. at_block B; each_in I; eexists; (split; [reflexivity|cbn; auto]).
  - intros x b p B I. at_block B; each_in I; eexists; (split; [reflexivity|cbn; auto]).
  - intros x b B. at_block B; cbn; repeat constructor; cbn; intuition discriminate.
  - intros x b B. at_block B; cbn; intuition discriminate.
  - intros x b s1 b1 s2 b2 B I1 I2 B1 B2 J1 J2. at_block B; each_in I1; each_in I2; try reflexivity; exfalso; unfold block_at in B1, B2; cbn in B1, B2;
      injection B1 as <-; injection B2 as <-; unfold join in J1, J2; cbn in J1, J2; lia.
  - intros x b B. at_block B; cbn; auto; right; (split; [repeat constructor; cbn; intuition discriminate|tauto]).
  - intros x b i B I. at_block B; each_in I; (split; [discriminate|]); (split; [unfold join; cbn; lia|]); (split; [reflexivity|]);
      (split; [cbn; intuition discriminate|]); eexists; (split; [reflexivity|apply not_reserved; reflexivity]).
  - intros x b B. at_block B; cbn; repeat constructor; cbn; tauto.
  - intros x b B. at_block B; eexists; (split; [reflexivity|]); (split; [cbn; repeat constructor; cbn; intuition discriminate|]);
      (split; [cbn; repeat constructor; cbn; intuition discriminate|]); (split; [intros u (i & Ii & Hu); each_in Ii; cbn in Hu; injection Hu as <-; cbn; auto|]);
      intros v Iv; each_in Iv; (split; [apply not_reserved; reflexivity|discriminate]).
  - intros x l L. apply lookup_In in L. each_in L; injection L as <- <-; split; reflexivity.
  - intros x b s sb lx ls B I Bs J Lx Ls. at_block B; each_in I; unfold block_at in Bs; cbn in Bs; injection Bs as <-; try (exfalso; apply J; unfold join; cbn; lia);
      cbn in Lx, Ls; injection Lx as <-; injection Ls as <-; intros v Iv; each_in Iv; cbn; auto.
  - intros x b s sb t tb lt u B I Bs P It N Bt Lt Iu. destruct P as (i & Ii & Hu).
    at_block B; each_in I; each_in It; try congruence; unfold block_at in Bs; cbn in Bs; injection Bs as <-; each_in Ii; cbn in Hu; injection Hu as <-;
      cbn in Lt; injection Lt as <-; each_in Iu; discriminate.
  - intros l L. cbn in L. injection L as <-. intros v [].
Qed.
Lemma guard_component : component_ok guard_env guard_live.
Proof.
  constructor.
  - cbn. repeat constructor; cbn; intuition discriminate.
  - intros x b s B I. at_block B; each_in I; eexists; (split; [reflexivity|cbn; auto]).
  - intros x b p B I. at_block B; each_in I; eexists; (split; [reflexivity|cbn; auto]).
  - intros x b B. at_block B; cbn; repeat constructor; cbn; intuition discriminate.
  - intros x b B. at_block B; cbn; intuition discriminate.
  - intros x b s1 b1 s2 b2 B I1 I2 B1 B2 J1 J2. at_block B; each_in I1; each_in I2; try reflexivity; exfalso; unfold block_at in B1, B2; cbn in B1, B2;
      injection B1 as <-; injection B2 as <-; unfold join in J1, J2; cbn in J1, J2; lia.
  - intros x b B. at_block B; cbn; auto; right; (split; [repeat constructor; cbn; intuition discriminate|tauto]).
  - intros x b i B I. at_block B; each_in I; (split; [discriminate|]); (split; [unfold join; cbn; lia|]); (split; [reflexivity|]);
      (split; [cbn; intuition discriminate|]); eexists; (split; [reflexivity|apply not_reserved; reflexivity]).
  - intros x b B. at_block B; cbn; repeat constructor; cbn; tauto.
  - intros x b B. at_block B; eexists; (split; [reflexivity|]); (split; [cbn; repeat constructor; cbn; intuition discriminate|]);
      (split; [cbn; repeat constructor; cbn; intuition discriminate|]); (split; [intros u (i & Ii & Hu); each_in Ii; cbn in Hu; injection Hu as <-; cbn; auto|]);
      intros v Iv; each_in Iv; (split; [apply not_reserved; reflexivity|discriminate]).
  - intros x l L. apply lookup_In in L. each_in L; injection L as <- <-; split; reflexivity.
  - intros x b s sb lx ls B I Bs J Lx Ls. at_block B; each_in I; unfold block_at in Bs; cbn in Bs; injection Bs as <-; try (exfalso; apply J; unfold join; cbn; lia);
      cbn in Lx, Ls; injection Lx as <-; injection Ls as <-; intros v Iv; each_in Iv; cbn; auto.
  - intros x b s sb t tb lt u B I Bs P It N Bt Lt Iu. destruct P as (i & Ii & Hu).
    at_block B; each_in I; each_in It; try congruence; unfold block_at in Bs; cbn in Bs; injection Bs as <-; each_in Ii; cbn in Hu; injection Hu as <-;
      cbn in Lt; injection Lt as <-; each_in Iu; discriminate.
  - intros l L. cbn in L. injection L as <-. intros v [].
Qed.
Lemma demo_tables : tables_ok demo_env demo_live.
Proof.
  constructor.
  - eexists. split; reflexivity.
  - intros x b B. at_block B; eexists; reflexivity.
  - intros x b B. at_block B; eexists; reflexivity.
  - intros a b p H. cbn [le_path demo_env] in H. destruct (String.eqb a "Start" && String.eqb b "Next")%bool eqn:E1.
    + apply andb_true_iff in E1 as (E1 & E2). apply String.eqb_eq in E1, E2. subst. injection H as <-. split; reflexivity.
    + destruct (String.eqb a "Body" && String.eqb b "Extra")%bool eqn:E; [|discriminate]. apply andb_true_iff in E as (E & E2).
      apply String.eqb_eq in E, E2. subst. injection H as <-. split; reflexivity.
  - intros x b p B I. at_block B; each_in I; eexists; reflexivity.
  - cbn. repeat constructor; cbn; intuition discriminate.
Qed.

Lemma guard_tables : tables_ok guard_env guard_live.
Proof.
  constructor.
  - eexists. split; reflexivity.
  - intros x b B. at_block B; eexists; reflexivity.
  - intros x b B. at_block B; eexists; reflexivity.
  - intros a b p H. cbn [le_path guard_env env_of] in H. destruct (String.eqb a "Start" && String.eqb b "Then")%bool eqn:E; [|discriminate].
    apply andb_true_iff in E as (E & E2). apply String.eqb_eq in E, E2. subst. injection H as <-. split; reflexivity.
  - intros x b p B I. at_block B; each_in I; eexists; reflexivity.
  - cbn. repeat constructor; cbn; intuition discriminate.
Qed.

(** Every traversal that ends gives layouts that fit; it only ends otherwise with
    the assertion of unify_stacks_dominant (src/liveness/stack_layout_methods.py:405). *)
Theorem layouts_fit_partial : forall env lv, component_ok env lv -> tables_ok env lv ->
  construct_code_from_block_list env lv = Raise AssertionError
  \/ exists st, construct_code_from_block_list env lv = Ok st /\ layouts_fit env lv (ly_spec st).
Proof.
  intros env lv OK TB. destruct (traversal_total env lv OK TB) as [E|(st & E)]; [now left|].
  right. exists st. split; [exact E|]. exact (traversal_fits env lv OK st E).
Qed.
Print Assumptions layouts_fit_partial.
Example layouts_fit_hyps : component_ok demo_env demo_live /\ tables_ok demo_env demo_live.
Proof. exact (conj demo_component demo_tables). Qed.
Example layouts_fit_example : exists st, construct_code_from_block_list demo_env demo_live = Ok st /\
  ly_spec st = [("Start", ([], ["n"; "k"])); ("Loop", (["x"; "k"], ["x"; "k"])); ("Body", (["x"; "k"], ["x"; "k"])); ("Exit", (["x"; "k"], ["x"; "k"]));
                ("Extra", (["x"; "k"], ["z"; "k"])); ("Next", (["y"; "k"], ["y"; "k"]))].
Proof. eexists. split; reflexivity. Qed.

(** The assertion does fail: a block with a value that only its other successor
    needs, next to a brother that dominates it. *)
Theorem layouts_assertion_refuted : component_ok guard_env guard_live /\ tables_ok guard_env guard_live
  /\ construct_code_from_block_list guard_env guard_live = Raise AssertionError.
Proof. exact (conj guard_component (conj guard_tables eq_refl)). Qed.
Print Assumptions layouts_assertion_refuted.

(** Without [ok_one_join]: two joins after the same blocks.  The traversal reads a
    layout that was never chosen (KeyError). *)
Definition two_blocks : list (string * cblock) :=
  [ ("Start", blk [li "calldatasize" [] ["c"]; li "callvalue" [] ["d"]; li "gas" [] ["u"]] (Some (li "JUMPI" ["1"; "c"] [])) "conditional" (Some "P") (Some "Q") [] []);
    ("P", blk [] (Some (li "JUMPI" ["2"; "d"] [])) "conditional" (Some "J1") (Some "J2") ["Start"] []);
    ("Q", blk [] (Some (li "JUMPI" ["2"; "d"] [])) "conditional" (Some "J1") (Some "J2") ["Start"] []);
    ("J1", blk [li "sstore" ["d"; "u"] []] (Some (li "stop" [] [])) "terminal" None None ["P"; "Q"] []);
    ("J2", blk [li "sstore" ["u"; "d"] []] (Some (li "stop" [] [])) "terminal" None None ["P"; "Q"] []) ].
Definition two_live : lives :=
  [ ("Start", live_of [] ["d"; "u"]); ("P", live_of ["d"; "u"] ["d"; "u"]); ("Q", live_of ["d"; "u"] ["d"; "u"]);
    ("J1", live_of ["d"; "u"] []); ("J2", live_of ["d"; "u"] []) ].
Definition two_env := env_of two_blocks "Start" [("Start", 0); ("P", 1); ("Q", 1); ("J1", 1); ("J2", 1)] (fun _ _ => None).
Theorem layouts_two_joins_refuted : construct_code_from_block_list two_env two_live = Raise OtherError.
Proof. reflexivity. Qed.
Print Assumptions layouts_two_joins_refuted.

(** Without [ok_live_phi]: n := 3; do { x := phi(n, y); y := x - 1 } while (y);
    sstore(0, x).  The exit of the loop reads x, which is not in its layout. *)
Definition critical_blocks : list (string * cblock) :=
  [ ("Start", blk [li "LiteralAssignment" ["0x03"] ["n"]] None "falls_to" None (Some "Loop") [] []);
    ("Loop", blk [li "PhiFunction" ["n"; "y"] ["x"]; li "sub" ["x"; "0x01"] ["y"]] None "falls_to" None (Some "Tail") ["Start"; "Tail"] ["Start"; "Tail"]);
    ("Tail", blk [li "iszero" ["y"] ["c"]] (Some (li "JUMPI" ["1"; "c"] [])) "conditional" (Some "Exit") (Some "Loop") ["Loop"] []);
    ("Exit", blk [li "sstore" ["0x00"; "x"] []] (Some (li "stop" [] [])) "terminal" None None ["Tail"] []) ].
Definition critical_live : lives :=
  [ ("Start", live_of [] ["n"]); ("Loop", live_of ["x"] ["x"; "y"]); ("Tail", live_of ["x"; "y"] ["x"; "y"]); ("Exit", live_of ["x"] []) ].
Definition critical_env := env_of critical_blocks "Start" [("Start", 0); ("Loop", 1); ("Tail", 2); ("Exit", 3)]
  (fun a b => if (String.eqb a "Start" && String.eqb b "Tail")%bool then Some ["Start"; "Loop"; "Tail"] else None).
Theorem layouts_critical_phi_refuted : exists st i f, construct_code_from_block_list critical_env critical_live = Ok st
  /\ lookup "Exit" (ly_spec st) = Some (i, f) /\ lookup "Exit" critical_live = Some (live_of ["x"] []) /\ ~ In "x" i.
Proof. eexists _, _, _. split; [reflexivity|]. split; [reflexivity|]. split; [reflexivity|]. cbn. intuition discriminate. Qed.
Print Assumptions layouts_critical_phi_refuted.
