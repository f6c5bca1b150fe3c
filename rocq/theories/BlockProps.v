(** C39, C40: the translation of a whole block, from the instructions of the
    control-flow graph to the emitted code. *)
From Coq Require Import Relations.
From Verif Require Import Base Lexical SymExecModel AsmModel MachineSpec GreedyTailModel FootprintSpec LexicalProofs
  CheckerProofs CheckerProps DepsModel DepsSpec DepsProofs DepsProps SpecModel SpecSem SpecProofs SpecBuild SpecSound
  SpecDce SpecCheck SpecProps SpecDeps BlockSpec BlockProofs.
Open Scope string_scope. Open Scope list_scope.

(** C40.  The dependencies of a generated specification only mention its
    operations, and run in the order of the list: the list itself is a schedule
    that meets them. *)
Theorem specification_dependencies_consistent : forall instrs initial split final target s,
  ssa_block instrs initial -> before_split split final target -> (forall v, In v target -> layout_name v) ->
  build_spec instrs split initial final = Ok s ->
  forall a b, In (a, b) (s_deps s) -> exists n m i j, n < m
    /\ nth_error (s_instrs s) n = Some i /\ nth_error (s_instrs s) m = Some j /\ i_id i = a /\ i_id j = b.
Proof.
  intros instrs initial split final target s HB HT HF HS. apply before_split_stack in HT. subst target.
  eapply block_dependencies_forward; eauto.
Qed.
Print Assumptions specification_dependencies_consistent.

(** C40, the converse: whatever the meaning of the operations, as long as each
    stays within the places the EVM gives it, two operations of the
    specification that touch the same place, one of them writing it, are ordered
    by the dependencies the way they are in the block.  Partial: for the blocks
    of [orderable] in which every loaded or hashed value is used. *)
Theorem specification_orders_conflicts_partial : forall instrs initial split final target s,
  ssa_block instrs initial -> orderable instrs -> before_split split final target ->
  (forall v, In v target -> layout_name v) -> loads_used instrs target ->
  build_spec instrs split initial final = Ok s ->
  forall V LV (sem : semantics V place LV) val, evm_like sem val instrs ->
  forall e0 w0, let values := fst (exec_prog sem (s_instrs s) (e0, w0)) in
  forall n m i j, n < m -> nth_error (s_instrs s) n = Some i -> nth_error (s_instrs s) m = Some j ->
  forall l, (let op x := lower (i_disasm x) in let args x := map val (map values (i_inpt x)) in
     (evm_writes (op i) (args i) l = true /\ evm_depends (op j) (args j) l)
     \/ (evm_depends (op i) (args i) l /\ evm_writes (op j) (args j) l = true)) ->
  clos_trans string (fun a b => In (a, b) (s_deps s)) (i_id i) (i_id j).
Proof.
  intros instrs initial split final target s HB HO HT HF HU HS V LV sem val HE e0 w0 values n m i j L Hn Hm l K.
  apply before_split_stack in HT. subst target.
  destruct (block_dependencies instrs initial split final s HB HO HF HS HU sem val HE e0 w0) as [_ D].
  apply (D n m i j L Hn Hm). exists l. cbn [reads writes block_fp]. cbv zeta in K. unfold evm_depends in *. tauto.
Qed.
Print Assumptions specification_orders_conflicts_partial.

(** C39.  From a block of the control-flow graph to its code: if the
    specification of the block could be built, the validator and the depth
    check accepted the sequence of operations, and the sequence was turned into
    code, then running the code on a stack that starts with the initial layout
    ends with the requested layout on top of the untouched rest (with some more
    words in between when the validator was told to admit junk), every element
    holding what the block's instructions compute, and leaves every place of
    the state as the block's instructions do.  Partial: for the blocks of
    [orderable] in which every loaded or hashed value is used. *)
Theorem compiled_block_correct_partial : forall instrs initial split final target s ids code junk,
  ssa_block instrs initial -> orderable instrs -> before_split split final target ->
  (forall v, In v target -> layout_name v) -> loads_used instrs target ->
  build_spec instrs split initial final = Ok s ->
  ids_ok ids = true -> check_execution_from_ids s ids junk = Ok true ->
  check_dup_swap 16 ids = Ok tt -> asm_from_ids (s_instrs s) ids = Ok code ->
  forall V LV (sem : semantics V place LV) val, evm_like sem val instrs ->
  forall e0 w0 below r0, vgets_ok ids r0 (fst (exec_prog sem (s_instrs s) (e0, w0))) ->
  let block := exec_cfg sem instrs (e0, w0) in
  exists m out extra, mrun sem code {| m_stack := map e0 initial ++ below; m_world := w0; m_regs := r0 |} = Some m
    /\ m_stack m = out ++ extra ++ below /\ (junk = false -> extra = [])
    /\ Forall2 (fun v x => v <> "bottom" -> x = aval sem (fst block) v) target out
    /\ forall l, m_world m l = snd block l.
Proof.
  intros instrs initial split final target s ids code junk HB HO HT HF HU HS I1 I2 I3 I4 V LV sem val HE e0 w0 below r0 HV block.
  destruct (specification_faithful instrs initial split final target s HB HT HF HS) as (E1 & Wf & Sp).
  destruct (Sp V place LV sem (block_marked instrs HO sem val HE) e0 w0) as [Sw St].
  pose proof HT as HT'. apply before_split_stack in HT'. subst target.
  destruct (block_dependencies instrs initial split final s HB HO HF HS HU sem val HE e0 w0) as [R D].
  assert (K : exists m extra, mrun sem code {| m_stack := map e0 initial ++ below; m_world := w0; m_regs := r0 |} = Some m
    /\ m_stack m = map (fst (exec_prog sem (s_instrs s) (e0, w0))) (s_tgt s) ++ extra ++ below /\ (junk = false -> extra = [])
    /\ forall l, m_world m l = snd (exec_prog sem (s_instrs s) (e0, w0)) l).
  { rewrite <- E1. destruct junk.
    - destruct (accepted_code_with_junk s ids code (Build_emitted _ _ _ _ Wf I1 I2 I3 I4) V place LV sem (block_fp val) R
        e0 w0 below r0 D HV) as (m & j & M1 & M2 & _ & M3).
      exists m. eexists. split; [exact M1|]. split; [exact M2|]. split; [discriminate|exact M3].
    - destruct (accepted_code_same_effects s ids code (Build_emitted _ _ _ _ Wf I1 I2 I3 I4) V place LV sem (block_fp val) R
        e0 w0 below r0 D HV) as (m & M1 & M2 & M3).
      exists m, []. split; [exact M1|]. split; [exact M2|]. split; [reflexivity|exact M3]. }
  destruct K as (m & extra & M1 & M2 & M4 & M3).
  exists m, (map (fst (exec_prog sem (s_instrs s) (e0, w0))) (s_tgt s)), extra. split; [exact M1|]. split; [exact M2|].
  split; [exact M4|]. split.
  - clear -St. induction St as [|v x vs xs H F IH]; simpl; constructor; auto.
  - intros l. rewrite M3. exact (f_equal (fun w => w l) Sw).
Qed.
Print Assumptions compiled_block_correct_partial.

(** Non-vacuity: a block that stores a word in memory, hashes it, and updates
    the slot given by the hash, followed by a call of a function. *)
Definition hashed_block : list cins :=
  [ {| c_op := "mload"; c_in := ["0x40"]; c_out := ["p"]; c_lit := None |};
    {| c_op := "mstore"; c_in := ["p"; "a"]; c_out := []; c_lit := None |};
    {| c_op := "keccak256"; c_in := ["p"; "0x20"]; c_out := ["h"]; c_lit := None |};
    {| c_op := "sload"; c_in := ["h"]; c_out := ["v"]; c_lit := None |};
    {| c_op := "add"; c_in := ["v"; "a"]; c_out := ["w"]; c_lit := None |};
    {| c_op := "sstore"; c_in := ["h"; "w"]; c_out := []; c_lit := None |} ].
Definition hashed_call : cins := {| c_op := "f"; c_in := ["w"; "a"]; c_out := ["r"]; c_lit := None |}.
Definition hashed_ids : list string :=
  ["PUSH_0"; "MLOAD_0"; "DUP2"; "DUP2"; "MSTORE_0"; "PUSH_1"; "SWAP1"; "KECCAK256_0"; "DUP1"; "SLOAD_0"; "DUP3"; "ADD_0";
   "DUP1"; "SWAP2"; "SSTORE_0"].

Fixpoint sum_bytes (w : place -> Z) (a : Z) (n : nat) : Z :=
  match n with O => 0 | S n' => w (Byte a) * 3 + sum_bytes w (a + 1) n' end%Z.
Definition toy_prim (op : string) (im : option string) (args : list Z) (w : place -> Z) : list Z * (place -> Z) :=
  if String.eqb op "MLOAD" then match args with [a] => ([sum_bytes w a 32], w) | _ => ([], w) end
  else if String.eqb op "KECCAK256" then match args with [a; n] => ([sum_bytes w a (Z.to_nat n)], w) | _ => ([], w) end
  else if String.eqb op "SLOAD" then match args with [k] => ([w (Slot k)], w) | _ => ([], w) end
  else if String.eqb op "ADD" then match args with [a; b] => ([(a + b)%Z], w) | _ => ([], w) end
  else if String.eqb op "MSTORE" then
    match args with
    | [a; v] => ([], fun l => match l with Byte b => if ((a <=? b) && (b <? a + 32))%Z then (v + b - a)%Z else w l | _ => w l end)
    | _ => ([], w)
    end
  else if String.eqb op "SSTORE" then
    match args with
    | [k; v] => ([], fun l => match l with Slot x => if (k =? x)%Z then v else w l | _ => w l end)
    | _ => ([], w)
    end
  else ([], w).
Definition toy_sem : semantics Z place Z :=
  {| word_of_Z := fun z => z; tag_word := fun z => z;
     prim_arity := fun op _ => if mem op ["MLOAD"; "SLOAD"] then 1
                               else if mem op ["KECCAK256"; "ADD"; "MSTORE"; "SSTORE"] then 2 else 0;
     prim := toy_prim |}.

Lemma sum_bytes_ext w1 w2 n : forall a, (forall b, (a <= b < a + Z.of_nat n)%Z -> w1 (Byte b) = w2 (Byte b)) ->
  sum_bytes w1 a n = sum_bytes w2 a n.
Proof.
  induction n as [|n IH]; intros a H; simpl; [reflexivity|]. rewrite (H a) by lia.
  rewrite (IH (a + 1)%Z); [reflexivity|]. intros b Hb. apply H. lia.
Qed.

Arguments sum_bytes : simpl never.
Ltac each_instr H := simpl in H; repeat (destruct H as [<-|H]; [|]); [..|destruct H].

Lemma toy_like : evm_like toy_sem (fun z => z) hashed_block.
Proof.
  constructor.
  - reflexivity.
  - intros i args w1 w2 Hi H. each_instr Hi; unfold cfg_denote; simpl; unfold toy_prim; simpl.
    + destruct args as [|a [|]]; simpl; auto. f_equal. apply (sum_bytes_ext w1 w2 32). intros b Hb. apply H. left. simpl.
      unfold range_has. simpl. rewrite (proj2 (Z.leb_le _ _)), (proj2 (Z.ltb_lt _ _)) by lia. reflexivity.
    + destruct args as [|a [|b [|]]]; reflexivity.
    + destruct args as [|a [|n [|]]]; simpl; auto. f_equal. apply sum_bytes_ext. intros b Hb. apply H. left. simpl.
      unfold range_has. simpl. rewrite (proj2 (Z.leb_le _ _)), (proj2 (Z.ltb_lt _ _)) by lia. reflexivity.
    + destruct args as [|a [|]]; simpl; auto. f_equal. apply H. left. simpl. rewrite Z.eqb_refl. reflexivity.
    + destruct args as [|a [|b [|]]]; reflexivity.
    + destruct args as [|a [|b [|]]]; reflexivity.
  - intros i args w1 w2 Hi H l Hl. assert (E : w1 l = w2 l) by (apply H; right; exact Hl).
    each_instr Hi; unfold cfg_denote; simpl; unfold toy_prim; simpl.
    + destruct args as [|a [|]]; exact E.
    + destruct args as [|a [|b [|]]]; try exact E. simpl. destruct l; auto. rewrite E. reflexivity.
    + destruct args as [|a [|n [|]]]; exact E.
    + destruct args as [|a [|]]; exact E.
    + destruct args as [|a [|b [|]]]; exact E.
    + destruct args as [|a [|b [|]]]; try exact E. simpl. destruct l; auto. rewrite E. reflexivity.
  - intros i args w l Hi Hl. each_instr Hi; unfold cfg_denote; simpl; unfold toy_prim; simpl.
    + destruct args as [|a [|]]; reflexivity.
    + destruct args as [|a [|b [|]]]; try reflexivity. simpl. destruct l; auto. rewrite map_id in Hl.
      cbn [evm_writes c_op existsb mem_writes] in Hl. simpl in Hl. unfold range_has in Hl. simpl in Hl. rewrite orb_false_r in Hl.
      rewrite Hl. reflexivity.
    + destruct args as [|a [|n [|]]]; reflexivity.
    + destruct args as [|a [|]]; reflexivity.
    + destruct args as [|a [|b [|]]]; reflexivity.
    + destruct args as [|a [|b [|]]]; try reflexivity. simpl. destruct l; auto. simpl in Hl. rewrite orb_false_r in Hl.
      rewrite Hl. reflexivity.
  - intros i args w Hi Hl. each_instr Hi; unfold cfg_denote; simpl; unfold toy_prim; simpl.
    + destruct args as [|a [|]]; reflexivity.
    + destruct args as [|a [|b [|]]]; try reflexivity. exfalso. specialize (Hl (Byte a)). simpl in Hl.
      unfold range_has in Hl. simpl in Hl. rewrite Z.leb_refl, (proj2 (Z.ltb_lt _ _)) in Hl by lia. discriminate.
    + destruct args as [|a [|n [|]]]; reflexivity.
    + destruct args as [|a [|]]; reflexivity.
    + destruct args as [|a [|b [|]]]; reflexivity.
    + destruct args as [|a [|b [|]]]; try reflexivity. exfalso. specialize (Hl (Slot a)). simpl in Hl.
      rewrite Z.eqb_refl in Hl. discriminate.
  - intros i a b w Hi Hop. each_instr Hi; simpl in Hop; try (exfalso; intuition discriminate).
    unfold cfg_denote. simpl. unfold toy_prim. simpl. rewrite Z.add_comm. reflexivity.
  - intros i args w Hi HL. each_instr Hi; cbn [c_in length] in HL; unfold cfg_denote; simpl; unfold toy_prim; simpl;
      destruct args as [|a [|b [|]]]; try discriminate; reflexivity.
  - intros i im Hi. each_instr Hi; reflexivity.
  - intros op im [<-|[<-|[]]]; reflexivity.
Qed.

Lemma hashed_orderable : orderable hashed_block.
Proof.
  constructor.
  - intros i Hi. each_instr Hi; simpl; intuition discriminate.
  - set (level := fun x => if String.eqb x "w" then 5 else if String.eqb x "v" then 4 else if String.eqb x "h" then 3
       else if String.eqb x "p" then 2 else 1).
    assert (K : forall x y, computed_from hashed_block x y -> level y < level x).
    { intros x y H. induction H as [x y (i & Hi & Ho & Hx)|x y z H1 IH1 H2 IH2]; [|lia].
      each_instr Hi; cbn [c_in c_out] in Ho, Hx; simpl in Ho, Hx; try contradiction;
        repeat (destruct Ho as [<-|Ho]; try contradiction); repeat (destruct Hx as [<-|Hx]; try contradiction); vm_compute; lia. }
    intros i j a b Hi Hj Oi Oj Si Sj Q. apply K in Q.
    each_instr Hi; simpl in Oi; try (exfalso; intuition discriminate); each_instr Hj; simpl in Oj;
      try (exfalso; intuition discriminate); cbn in Si, Sj; injection Si as <-; injection Sj as <-; lia.
  - intros m n i j L Hm Hn W R. exfalso. apply nth_error_In in Hm. each_instr Hm; vm_compute in W; discriminate.
Qed.

Lemma hashed_used : loads_used hashed_block ["w"; "a"].
Proof.
  assert (St : In (nth 5 hashed_block hashed_call) hashed_block) by (simpl; auto 10).
  assert (Nw : forall x, In x ["h"; "w"] -> needed hashed_block ["w"; "a"] x).
  { intros x Hx. apply (NeedEffect _ _ _ x [0%Z] (Slot 0) St Hx). reflexivity. }
  intros i Hi Hl. each_instr Hi; simpl in Hl; try (exfalso; intuition discriminate).
  - exists "p". split; [simpl; auto|]. apply (NeedResult _ _ (nth 2 hashed_block hashed_call) "p" "h"); simpl; auto 10.
    apply Nw. simpl; auto.
  - exists "h". split; [simpl; auto|]. apply Nw. simpl; auto.
  - exists "v". split; [simpl; auto|]. apply (NeedResult _ _ (nth 4 hashed_block hashed_call) "v" "w"); simpl; auto 10.
    apply Nw. simpl; auto.
Qed.

Example compiled_block_example : exists s code,
  ssa_block hashed_block ["a"] /\ orderable hashed_block /\ before_split (Some hashed_call) ["r"] ["w"; "a"]
  /\ (forall v, In v ["w"; "a"] -> layout_name v) /\ loads_used hashed_block ["w"; "a"]
  /\ build_spec hashed_block (Some hashed_call) ["a"] ["r"] = Ok s
  /\ ids_ok hashed_ids = true /\ check_execution_from_ids s hashed_ids false = Ok true
  /\ check_dup_swap 16 hashed_ids = Ok tt /\ asm_from_ids (s_instrs s) hashed_ids = Ok code
  /\ s_deps s = [("SLOAD_0", "SSTORE_0"); ("MLOAD_0", "MSTORE_0"); ("MSTORE_0", "KECCAK256_0")]
  /\ evm_like toy_sem (fun z => z) hashed_block
  /\ forall r0 e, vgets_ok (V := Z) hashed_ids r0 e.
Proof.
  eexists _, _. split; [apply ssa_blockb_ok; vm_compute; reflexivity|]. split; [exact hashed_orderable|].
  split; [exists []; auto|]. split; [apply layout_nameb_ok; vm_compute; reflexivity|]. split; [exact hashed_used|].
  split; [vm_compute; reflexivity|]. split; [vm_compute; reflexivity|]. split; [vm_compute; reflexivity|].
  split; [vm_compute; reflexivity|]. split; [vm_compute; reflexivity|]. split; [vm_compute; reflexivity|].
  split; [exact toy_like|]. intros r0 e pre id post x E H. exfalso.
  assert (Hid : In id hashed_ids) by (rewrite E; apply in_app_iff; simpl; auto).
  unfold hashed_ids in Hid. each_instr Hid; vm_compute in H; discriminate.
Qed.

(** The result on concrete words: memory, slot and stack after the code. *)
Example compiled_block_run : exists s code m,
  build_spec hashed_block (Some hashed_call) ["a"] ["r"] = Ok s /\ asm_from_ids (s_instrs s) hashed_ids = Ok code
  /\ mrun toy_sem code {| m_stack := [7; 99]%Z; m_world := fun _ => 0%Z; m_regs := fun _ => 0%Z |} = Some m
  /\ m_stack m = [7; 7; 99]%Z /\ m_world m (Slot 2160) = 7%Z /\ m_world m (Byte 1) = 8%Z.
Proof. eexists _, _, _. repeat (split; [vm_compute; reflexivity|]). vm_compute. reflexivity. Qed.
