(** C28, C29: the specification generated for a block. *)
From Coq Require Import Relations.
From Verif Require Import Base Lexical SymExecModel AsmModel MachineSpec FootprintSpec LexicalProofs
  CheckerProofs DepsModel SpecModel SpecSem SpecProofs SpecBuild SpecSound SpecDce SpecCheck.
Open Scope string_scope. Open Scope list_scope.

(** C29.  For every block in static single assignment form, every meaning of
    the operations (those not marked as having effects having none) and all
    initial values: the generated operations, run in their order, leave the
    world exactly as the block's instructions do, and every element of the
    target layout (the arguments of the instruction that ends the block in
    place of its results) holds what the block's instructions compute for the
    requested element ("bottom" marks a slot whose value is irrelevant).  The
    specification meets the well-formedness the validator theorems (C01-C04)
    ask for. *)
Theorem specification_faithful : forall instrs initial split final target s,
  ssa_block instrs initial -> before_split split final target ->
  (forall v, In v target -> layout_name v) ->
  build_spec instrs split initial final = Ok s ->
  s_src s = initial /\ wf_sfs s = true /\
  forall V Loc LV (sem : semantics V Loc LV), effects_marked sem instrs ->
  forall e0 w0, let block := exec_cfg sem instrs (e0, w0) in let spec := exec_prog sem (s_instrs s) (e0, w0) in
  snd spec = snd block
  /\ Forall2 (fun v x => v <> "bottom" -> fst spec x = aval sem (fst block) v)
       target (s_tgt s).
Proof.
  intros instrs initial split final target s B Bs Hf H. apply before_split_stack in Bs. subst target. unfold build_spec in H.
  apply bind_ok in H as ([[s' pos] unused] & H1 & H). apply bind_ok in H as (deps & H2 & H). injection H as <-.
  exact (build_sequence_sound instrs initial split final s' pos unused B Hf H1).
Qed.
Print Assumptions specification_faithful.

(** Ids of the generated operations are pairwise distinct and never spelled
    like a stack operation; so are the names of the results. *)
Theorem specification_ids_unique : forall instrs initial split final target s,
  ssa_block instrs initial -> before_split split final target ->
  (forall v, In v target -> layout_name v) ->
  build_spec instrs split initial final = Ok s ->
  NoDup (map i_id (s_instrs s)) /\ NoDup (flat_map i_outpt (s_instrs s))
  /\ forall i, In i (s_instrs s) -> is_stack_op (i_id i) = false.
Proof.
  intros instrs initial split final target s B Bs Hf H. destruct (specification_faithful _ _ _ _ _ _ B Bs Hf H) as (_ & W & _).
  unfold wf_sfs in W. rewrite !andb_true_iff in W. destruct W as ((((W1 & W2) & W3) & W4) & W5).
  split; [apply (proj1 (ids_unique_NoDup _ [] W1))|]. split; [apply (proj1 (vars_unique_NoDup _ [] W2))|].
  intros i Hi. rewrite forallb_forall in W5. specialize (W5 i Hi). rewrite !andb_true_iff in W5.
  destruct W5 as (((W5 & _) & _) & _). unfold name_ok in W5. rewrite andb_true_iff, negb_true_iff in W5. tauto.
Qed.
Print Assumptions specification_ids_unique.

(** C28.  For every list of operations with distinct ids and results and every
    target, the detection of unused operations answers; what it removes has no
    effects, and neither the target nor a kept operation uses its results. *)
Theorem unused_removal_safe : forall ops target,
  NoDup (map i_id ops) -> NoDup (flat_map i_outpt ops) ->
  exists unused, detect_unused_instructions ops target = Ok unused /\
  forall i, In i ops -> In (i_id i) unused ->
    i_storage i = false /\ (forall x, In x (i_outpt i) -> ~ In x target)
    /\ forall j x, In j ops -> ~ In (i_id j) unused -> In x (i_outpt i) -> ~ In x (i_inpt j).
Proof.
  intros ops target N1 N2. destruct (detect_total ops target) as (u & H). exists u. split; [exact H|].
  destruct (detect_kept ops target u N1 N2 H) as [K1 K2 K3]. intros i Hi Ui.
  assert (F : negb (mem (i_id i) u) = false) by (apply negb_false_iff, mem_In; exact Ui).
  split; [destruct (i_storage i) eqn:E; [rewrite (K1 i Hi E) in F; discriminate|reflexivity]|]. split.
  - intros x Hx Q. rewrite (K2 i x Hi Hx Q) in F. discriminate.
  - intros j x Hj Uj Xi Xj. rewrite (K3 j i x Hj Hi) in F; auto; try discriminate.
    apply negb_true_iff, mem_false. exact Uj.
Qed.
Print Assumptions unused_removal_safe.

(** ... and nothing is kept without a reason. *)
Lemma dfs_reasons U (P : string -> Prop) fuel : forall node seen seen',
  P node -> (forall n, In n seen -> P n) -> (forall n m, P n -> In m (successors U n) -> P m) ->
  dfs fuel (successors U) node seen = Ok seen' -> forall n, In n seen' -> P n.
Proof.
  induction fuel as [|fuel IH]; intros node seen seen' Hn Hs Hc H; cbn [dfs] in H; [discriminate|].
  destruct (mem node seen); [injection H as <-; exact Hs|].
  refine (for_each_inv (fun s => forall n, In n s -> P n) _ _ _ _ _ _ H).
  - intros n [<-|Q]; auto.
  - intros s x s' Hx Ps E. apply (IH x s s'); auto. eapply Hc; eauto.
Qed.

Theorem unused_removal_complete : forall ops target unused,
  NoDup (map i_id ops) -> NoDup (flat_map i_outpt ops) ->
  detect_unused_instructions ops target = Ok unused ->
  forall i, In i ops -> ~ In (i_id i) unused ->
    exists last, clos_refl_trans instr (fun a b => In a ops /\ In b ops /\ exists x, In x (i_outpt a) /\ In x (i_inpt b)) i last
      /\ In last ops /\ (i_storage last = true \/ exists x, In x (i_outpt last) /\ In x target).
Proof.
  intros ops target unused N1 N2 H. unfold detect_unused_instructions in H. apply bind_ok in H as (r & Hr & H).
  injection H as <-. unfold reachable_ids in Hr.
  set (R := fun a b => In a ops /\ In b ops /\ exists x, In x (i_outpt a) /\ In x (i_inpt b)).
  set (P := fun id => forall i, In i ops -> i_id i = id -> exists last, clos_refl_trans instr R i last /\ In last ops
     /\ (i_storage last = true \/ exists x, In x (i_outpt last) /\ In x target)).
  assert (IdU : forall i j, In i ops -> In j ops -> i_id i = i_id j -> i = j).
  { intros i j Hi Hj E. apply In_nth_error in Hi as (m & Hm). apply In_nth_error in Hj as (n & Hn).
    assert (m = n).
    { rewrite NoDup_nth_error in N1. apply N1.
      - rewrite map_length. apply nth_error_Some. congruence.
      - rewrite !nth_error_map, Hm, Hn. simpl. congruence. }
    congruence. }
  assert (HP : forall n, In n r -> P n).
  { refine (for_each_inv (fun s => forall n, In n s -> P n) _ _ _ _ _ _ Hr); [intros n []|].
    intros s x s' Hx Ps E. eapply dfs_reasons; [|exact Ps| |exact E].
    - unfold roots in Hx. apply in_app_iff in Hx as [Hx|Hx].
      + apply In_filter_map in Hx as (v & Hv & Q). apply var2id_In in Q as (j & Hj & <- & Xj).
        intros i Hi Ei. assert (i = j) by auto. subst. exists j. split; [apply rt_refl|]. eauto 6.
      + apply in_map_iff in Hx as (j & <- & Hj). apply filter_In in Hj as [Hj Sj].
        intros i Hi Ei. assert (i = j) by auto. subst. exists j. split; [apply rt_refl|]. auto.
    - intros n m Pn Hm i Hi Ei. apply successors_In in Hm as (j & v & Hj & Ej & Xj & Q).
      apply var2id_In in Q as (k & Hk & Ek & Xk). assert (k = i) by (apply IdU; congruence). subst k.
      destruct (Pn j Hj Ej) as (last & L1 & L2). exists last. split; [|exact L2].
      eapply rt_trans; [apply rt_step|exact L1]. unfold R. eauto 6. }
  intros i Hi Ui. destruct (HP (i_id i)) with (i := i) as (last & L1 & L2 & L3); auto.
  - destruct (mem (i_id i) r) eqn:M; [apply mem_In; exact M|]. exfalso. apply Ui. apply filter_In.
    split; [apply in_map; exact Hi|]. rewrite M. reflexivity.
  - exists last. auto.
Qed.
Print Assumptions unused_removal_complete.

(** Non-vacuity: a block with a constant used twice, a tag, an immutable, a
    literal assignment, an unused operation and a constant in the target. *)
Definition sample_block : list cins :=
  [ {| c_op := "LiteralAssignment"; c_in := ["0x2a"]; c_out := ["k"]; c_lit := None |};
    {| c_op := "PUSH [tag]"; c_in := []; c_out := ["7"]; c_lit := None |};
    {| c_op := "pushimmutable"; c_in := []; c_out := ["im"]; c_lit := Some ["owner"] |};
    {| c_op := "sload"; c_in := ["0x02"]; c_out := ["v"]; c_lit := None |};
    {| c_op := "add"; c_in := ["v"; "0x02"]; c_out := ["w"]; c_lit := None |};
    {| c_op := "mul"; c_in := ["v"; "im"]; c_out := ["dead"]; c_lit := None |};
    {| c_op := "mstore"; c_in := ["p"; "k"]; c_out := []; c_lit := None |};
    {| c_op := "sstore"; c_in := ["0x02"; "w"]; c_out := []; c_lit := None |} ].
Example specification_faithful_example :
  ssa_block sample_block ["p"; "r"] /\ (forall v, In v ["w"; "0x05"; "7"; "bottom"] -> layout_name v)
  /\ exists s, build_spec sample_block None ["p"; "r"] ["w"; "0x05"; "7"; "bottom"] = Ok s
     /\ map i_disasm (s_instrs s) = ["PUSH"; "PUSH [TAG]"; "PUSH"; "SLOAD"; "ADD"; "MSTORE"; "SSTORE"; "PUSH"; "PUSH0"].
Proof.
  split; [apply ssa_blockb_ok; vm_compute; reflexivity|].
  split; [apply layout_nameb_ok; vm_compute; reflexivity|].
  eexists. split; vm_compute; reflexivity.
Qed.

(* ---------------------------------------------------------------- *)
(** The general claims without the restrictions of [ssa_block] are false. *)

(** Two identical datasize reads of which only the second result is used: the
    only push is removed although the store needs it (the alias is applied
    after the unused operations were computed). *)
Definition dup_datasize : list cins :=
  [ {| c_op := "push #[$]"; c_in := []; c_out := ["x"]; c_lit := Some ["0"] |};
    {| c_op := "push #[$]"; c_in := []; c_out := ["y"]; c_lit := Some ["0"] |};
    {| c_op := "mstore"; c_in := ["k"; "y"]; c_out := []; c_lit := None |} ].
Theorem needed_push_removed_refuted : exists instrs initial s,
  NoDup (flat_map c_out instrs) /\ build_spec instrs None initial [] = Ok s
  /\ exists i x, In i (s_instrs s) /\ In x (i_inpt i) /\ ~ In x initial /\ ~ In x (flat_map i_outpt (s_instrs s)).
Proof.
  exists dup_datasize, ["k"]. eexists. split; [repeat constructor; simpl; intuition discriminate|].
  split; [vm_compute; reflexivity|]. cbn [s_instrs]. eexists _, "x". split; [left; reflexivity|].
  split; [simpl; auto|]. split; simpl; intuition discriminate.
Qed.

(** "callcode" is not among the operations marked as having effects: a call
    whose result is not used disappears. *)
Theorem callcode_removed_refuted : exists i initial s,
  c_op i = "callcode" /\ build_spec [i] None initial initial = Ok s /\ s_instrs s = [].
Proof.
  exists {| c_op := "callcode"; c_in := ["g"; "a"; "v"; "i"; "n"; "o"; "m"]; c_out := ["r"]; c_lit := None |},
    ["g"; "a"; "v"; "i"; "n"; "o"; "m"].
  eexists. split; [reflexivity|]. split; vm_compute; reflexivity.
Qed.

(** "invalid" is neither among them nor among the operations that end a
    block (src/parser/constants.py:4): after a store it disappears, and the
    code goes on with whatever follows. *)
Theorem invalid_removed_refuted : exists i j initial s,
  c_op i = "sstore" /\ c_op j = "invalid" /\ build_spec [i; j] None initial initial = Ok s
  /\ map i_disasm (s_instrs s) = ["SSTORE"].
Proof.
  exists {| c_op := "sstore"; c_in := ["k"; "v"]; c_out := []; c_lit := None |},
    {| c_op := "invalid"; c_in := []; c_out := []; c_lit := None |}, ["k"; "v"].
  eexists. split; [reflexivity|]. split; [reflexivity|]. split; vm_compute; reflexivity.
Qed.

(** A variable of the program called s0 clashes with the name given to the
    first constant: the memory read is dropped and the constant is stored in
    its place. *)
Theorem fresh_name_clash_refuted : exists instrs initial s,
  NoDup (flat_map c_out instrs) /\ (forall x, In x initial -> ~ In x (flat_map c_out instrs))
  /\ build_spec instrs None initial ["s0"] = Ok s
  /\ In "mload" (map c_op instrs) /\ map i_disasm (s_instrs s) = ["PUSH"; "SSTORE"]
  /\ map i_inpt (s_instrs s) = [[]; ["s0"; "s0"]].
Proof.
  exists [ {| c_op := "mload"; c_in := ["p"]; c_out := ["s0"]; c_lit := None |};
           {| c_op := "sstore"; c_in := ["0x01"; "s0"]; c_out := []; c_lit := None |} ], ["p"].
  eexists. split; [repeat constructor; simpl; intuition discriminate|].
  split; [simpl; intuition; subst; discriminate|]. split; [vm_compute; reflexivity|].
  split; [left; reflexivity|]. split; vm_compute; reflexivity.
Qed.

(** memoryguard(0) and a zero constant get the same id. *)
Theorem zero_push_id_clash_refuted : exists instrs initial s,
  build_spec instrs None initial [] = Ok s /\ ~ NoDup (map i_id (s_instrs s)).
Proof.
  exists [ {| c_op := "mstore"; c_in := ["0x00"; "a"]; c_out := []; c_lit := None |};
           {| c_op := "push"; c_in := []; c_out := ["m"]; c_lit := Some ["0x0"] |};
           {| c_op := "mstore"; c_in := ["a"; "m"]; c_out := []; c_lit := None |} ], ["a"].
  eexists. split; [vm_compute; reflexivity|]. cbn. intros N.
  repeat match goal with N : NoDup (_ :: _) |- _ => inversion N; clear N; subst end. simpl in *. intuition.
Qed.

(** F1: the dependencies are reduced transitively before the unused operations
    are dropped, so the order of two writes that only followed through an
    unused read is lost. *)
Theorem order_lost_with_removed_read_refuted : exists instrs initial s a b,
  ssa_block instrs initial /\ build_spec instrs None initial [] = Ok s
  /\ map i_disasm (s_instrs s) = ["PUSH0"; "MSTORE"; "MSTORE"]
  /\ nth_error (s_instrs s) 1 = Some a /\ nth_error (s_instrs s) 2 = Some b
  /\ nth_error (i_inpt a) 0 = nth_error (i_inpt b) 0 /\ s_deps s = [].
Proof.
  exists [ {| c_op := "mstore"; c_in := ["0x00"; "a"]; c_out := []; c_lit := None |};
           {| c_op := "mload"; c_in := ["0x00"]; c_out := ["x"]; c_lit := None |};
           {| c_op := "mstore"; c_in := ["0x00"; "b"]; c_out := []; c_lit := None |} ], ["a"; "b"].
  eexists _, _, _. split; [apply ssa_blockb_ok; vm_compute; reflexivity|vm_compute; repeat split].
Qed.
Print Assumptions needed_push_removed_refuted.
Print Assumptions callcode_removed_refuted.
Print Assumptions invalid_removed_refuted.
Print Assumptions fresh_name_clash_refuted.
Print Assumptions zero_push_id_clash_refuted.
Print Assumptions order_lost_with_removed_read_refuted.
