(** Properties C01-C06: the block validator, and the clean-up and depth check
    of the synthesizer. *)
From Coq Require Import Relations.
From Verif Require Import Base Lexical SymExecModel AsmModel MachineSpec
  GreedyTailModel FootprintSpec LexicalProofs CheckerProofs CheckerSim GreedyTailProofs.

(** What the caller of the validator knows about the block and the sequence:
    the specification is well formed, the validator accepted, the synthesizer's
    depth check passed, and the sequence was turned into assembly. *)
Record emitted (s : sfs) (ids : list string) (junk : bool) (code : list asm) : Prop := {
  em_wf : wf_sfs s = true;
  em_ids : ids_ok ids = true;
  em_accepted : check_execution_from_ids s ids junk = Ok true;
  em_depth : check_dup_swap 16 ids = Ok tt;
  em_code : asm_from_ids (s_instrs s) ids = Ok code
}.

(** Meanings of operations that do not touch the world. *)
Definition pure_sem {V} (const tag : Z -> V) (arity : string -> option string -> nat)
  (f : string -> option string -> list V -> list V) : semantics V unit unit :=
  {| word_of_Z := const; tag_word := tag; prim_arity := arity;
     prim := fun op im args w => (f op im args, w) |}.

(** The operations of the block get as many arguments and give as many results
    as the block says, and those marked commutative are. *)
Definition signature_ok {V Loc LV} (sem : semantics V Loc LV) (i : instr) : Prop :=
  prim_arity sem (i_disasm i) (imm i) = length (i_inpt i)
  /\ (forall args w, length args = length (i_inpt i) ->
        length (fst (op_denote sem i args w)) = length (i_outpt i))
  /\ (forall a b w, i_comm i = true -> op_denote sem i [a; b] w = op_denote sem i [b; a] w).

(* ------------------------------------------------------------------ *)
(** C01: whatever the operations compute, and whatever the source variables
    hold, accepted code does not get stuck and ends with exactly the values of
    the target layout (those the block's operations define) on the stack. *)
Theorem accepted_code_computes_target :
  forall s ids code, emitted s ids false code ->
  forall V const tag arity f, let sem := @pure_sem V const tag arity f in
  (forall i, In i (s_instrs s) -> signature_ok sem i) ->
  forall (e0 : string -> V) below r0 w0,
  let final := fst (exec_prog sem (s_instrs s) (e0, w0)) in
  vgets_ok ids r0 final ->
  exists m, mrun sem code {| m_stack := map e0 (s_src s) ++ below; m_world := w0; m_regs := r0 |} = Some m
    /\ m_stack m = map final (s_tgt s) ++ below.
Proof.
  intros s ids code [H1 H2 H3 H4 H5] V const tag arity f sem Sg e0 below r0 w0 final Hg.
  assert (D : forall i args (w : unit -> unit), snd (op_denote sem i args w) = w).
  { intros i args w. unfold op_denote. destruct (String.eqb _ _); [reflexivity|].
    destruct (String.eqb _ _); [destruct (i_value i) as [[|[]]|]; reflexivity|].
    destruct (String.eqb _ _); [destruct (i_outpt i); [reflexivity|destruct (py_int s0); reflexivity]|reflexivity]. }
  assert (F : forall i args (w w' : unit -> unit), fst (op_denote sem i args w) = fst (op_denote sem i args w')).
  { intros i args w w'. unfold op_denote. destruct (String.eqb _ _); [reflexivity|].
    destruct (String.eqb _ _); [destruct (i_value i) as [[|[]]|]; reflexivity|].
    destruct (String.eqb _ _); [destruct (i_outpt i); [reflexivity|destruct (py_int s0); reflexivity]|reflexivity]. }
  destruct (checker_sound sem {| reads := fun _ _ _ => False; writes := fun _ _ _ => false |}
              s e0 w0 r0 below ids code false H1 H3 H4 H2 H5) as (st & m & R & S & T & _).
  - intros i Hi. destruct (Sg i Hi) as (A & B & C). constructor; auto; simpl; try discriminate.
    intros args w l _. rewrite D. reflexivity.
  - intros n m i j _ _ _ (l & [[E _]|[[] _]]); discriminate.
  - exact Hg.
  - exists m. split; [exact R|]. rewrite S, T. reflexivity.
Qed.
Print Assumptions accepted_code_computes_target.

(** C01 and C03 for operations with effects: if the dependencies order every
    pair of conflicting operations, the stack and the world are those of the
    block's operations executed one by one in program order. *)
Theorem accepted_code_same_effects :
  forall s ids code, emitted s ids false code ->
  forall V Loc LV (sem : semantics V Loc LV) fp,
  (forall i, In i (s_instrs s) -> respects sem fp i) ->
  forall (e0 : string -> V) (w0 : Loc -> LV) below r0,
  let final := exec_prog sem (s_instrs s) (e0, w0) in
  deps_cover fp (s_deps s) (s_instrs s) (fst final) ->
  vgets_ok ids r0 (fst final) ->
  exists m, mrun sem code {| m_stack := map e0 (s_src s) ++ below; m_world := w0; m_regs := r0 |} = Some m
    /\ m_stack m = map (fst final) (s_tgt s) ++ below
    /\ forall l, m_world m l = snd final l.
Proof.
  intros s ids code [H1 H2 H3 H4 H5] V Loc LV sem fp Hr e0 w0 below r0 final Hc Hg.
  destruct (checker_sound sem fp s e0 w0 r0 below ids code false H1 H3 H4 H2 H5 Hr Hc Hg)
    as (st & m & R & S & T & _ & W).
  exists m. split; [exact R|]. rewrite S, T. split; [reflexivity|exact W].
Qed.
Print Assumptions accepted_code_same_effects.

(** C02: with junk allowed the target is on top, and every word of the block's
    part of the stack is the value of a source variable, of a result of the
    block, or of a variable fetched from a register. *)
Theorem accepted_code_with_junk :
  forall s ids code, emitted s ids true code ->
  forall V Loc LV (sem : semantics V Loc LV) fp,
  (forall i, In i (s_instrs s) -> respects sem fp i) ->
  forall (e0 : string -> V) (w0 : Loc -> LV) below r0,
  let final := exec_prog sem (s_instrs s) (e0, w0) in
  deps_cover fp (s_deps s) (s_instrs s) (fst final) ->
  vgets_ok ids r0 (fst final) ->
  exists m junk, mrun sem code {| m_stack := map e0 (s_src s) ++ below; m_world := w0; m_regs := r0 |} = Some m
    /\ m_stack m = map (fst final) (s_tgt s) ++ map (fst final) junk ++ below
    /\ (forall x, In x junk -> In x (s_src s) \/ (exists i, In i (s_instrs s) /\ In x (i_outpt i))
                               \/ exists id, In id ids /\ vget_arg id = Some x)
    /\ forall l, m_world m l = snd final l.
Proof.
  intros s ids code [H1 H2 H3 H4 H5] V Loc LV sem fp Hr e0 w0 below r0 final Hc Hg.
  destruct (checker_sound sem fp s e0 w0 r0 below ids code true H1 H3 H4 H2 H5 Hr Hc Hg)
    as (st & m & R & S & T & K & W).
  exists m, (skipn (length (s_tgt s)) st). split; [exact R|].
  rewrite S, app_assoc, <- map_app. rewrite <- T at 1. rewrite firstn_skipn.
  split; [reflexivity|]. split; [|exact W].
  intros x Hx. assert (Hx' : In x st) by (rewrite <- (firstn_skipn (length (s_tgt s)) st); apply in_app_iff; auto).
  destruct (K x Hx') as [Q|[Q|Q]]; auto. right; left.
  unfold outputs in Q. apply in_flat_map in Q. exact Q.
Qed.
Print Assumptions accepted_code_with_junk.

(** C04, for every specification and sequence (no well-formedness needed). *)
Theorem accepted_effects_once :
  forall s ids junk, check_execution_from_ids s ids junk = Ok true ->
  forall i, In i (s_instrs s) -> i_storage i = true -> contains "GAS" (i_disasm i) = false ->
  exists pre post, ids = pre ++ i_id i :: post /\ ~ In (i_id i) pre /\ ~ In (i_id i) post.
Proof.
  intros s ids junk H i Hi S G. unfold check_execution_from_ids in H.
  apply bind_ok in H as (st & _ & H). apply bind_ok in H as ([] & _ & H).
  apply bind_ok in H as (d & _ & H). apply bind_ok in H as ([] & _ & H).
  apply bind_ok in H as ([] & C & _).
  assert (N : count (i_id i) ids = 1) by (eapply check_counts_In; eauto).
  assert (I : In (i_id i) ids) by (apply count_In; lia).
  apply in_split in I as (pre & post & ->). exists pre, post. split; auto.
  rewrite count_app in N. simpl in N. rewrite String.eqb_refl in N.
  split; intros Q; apply count_In in Q; lia.
Qed.
Print Assumptions accepted_effects_once.

Theorem accepted_dependencies_ordered :
  forall s ids junk, check_execution_from_ids s ids junk = Ok true ->
  forall a b, clos_trans string (fun x y => In (x, y) (s_deps s)) a b ->
  In a ids /\ In b ids /\
  forall m n, nth_error ids m = Some a -> nth_error ids n = Some b -> m < n.
Proof.
  intros s ids junk H a b T. unfold check_execution_from_ids in H.
  apply bind_ok in H as (st & _ & H). apply bind_ok in H as ([] & _ & H).
  apply bind_ok in H as (d & D & H). apply bind_ok in H as ([] & A & _).
  apply py_assert_ok in A. subst d. exact (check_deps_trans _ _ _ _ D T).
Qed.
Print Assumptions accepted_dependencies_ordered.

(* ------------------------------------------------------------------ *)
(** A concrete block with storage effects: c = s0 + s1; sstore(c, s0);
    r = sload(c), with target r, using a register. *)
Open Scope string_scope. Open Scope list_scope.
Definition ex_instr id op inp out comm sto val : instr :=
  {| i_id := id; i_disasm := op; i_inpt := inp; i_outpt := out; i_comm := comm; i_storage := sto;
     i_value := val |}.
Definition ex_sfs : sfs :=
  {| s_src := ["s0"; "s1"]; s_tgt := ["r"; "k"];
     s_instrs := [ex_instr "ADD_0" "ADD" ["s0"; "s1"] ["c"] true false None;
                  ex_instr "SSTORE_0" "SSTORE" ["c"; "s0"] [] false true None;
                  ex_instr "SLOAD_0" "SLOAD" ["c"] ["r"] false false None;
                  ex_instr "PUSH_0" "PUSH" [] ["k"] false false (Some [PInt 255])];
     s_deps := [("SSTORE_0", "SLOAD_0")] |}.
Definition ex_ids : list string :=
  ["DUP1"; "SWAP2"; "ADD_0"; "VSET(c)"; "VGET(c)"; "SSTORE_0"; "PUSH_0"; "VGET(c)"; "SLOAD_0"].
Definition ex_code : list asm :=
  match asm_from_ids (s_instrs ex_sfs) ex_ids with Ok c => c | Raise _ => [] end.

Example ex_emitted : emitted ex_sfs ex_ids false ex_code.
Proof. constructor; vm_compute; reflexivity. Qed.
Example ex_emitted_junk :
  emitted ex_sfs ("DUP2" :: "DUP2" :: ex_ids) true
   (match asm_from_ids (s_instrs ex_sfs) ("DUP2" :: "DUP2" :: ex_ids) with Ok c => c | Raise _ => [] end).
Proof. constructor; vm_compute; reflexivity. Qed.
(** the code emitted for it *)
Example ex_code_value :
  map a_name ex_code = ["DUP1"; "SWAP2"; "ADD"; "VSET(c)"; "VGET(c)"; "SSTORE"; "PUSH"; "VGET(c)"; "SLOAD"]
  /\ nth_error ex_code 6 = Some {| a_name := "PUSH"; a_value := Some "FF" |}.
Proof. split; vm_compute; reflexivity. Qed.

Definition ex_sem : semantics Z Z Z :=
  {| word_of_Z := fun z => z; tag_word := fun z => z;
     prim_arity := fun op _ => if String.eqb op "SLOAD" then 1 else if String.eqb op "PUSH" then 0 else 2;
     prim := fun op _ args w =>
       match args with
       | [a; b] => if String.eqb op "ADD" then ([(a + b)%Z], w)
                   else if String.eqb op "SSTORE" then ([], fun l => if (l =? a)%Z then b else w l)
                   else ([], w)
       | [a] => if String.eqb op "SLOAD" then ([w a], w) else ([], w)
       | _ => ([], w)
       end |}.
Definition ex_fp : footprint Z Z :=
  {| reads := fun i args l => i_disasm i = "SLOAD" /\ exists a, args = [a] /\ l = a;
     writes := fun i args l => String.eqb (i_disasm i) "SSTORE" &&
                 match args with [a; _] => (l =? a)%Z | _ => false end |}.

Lemma ex_respects i : In i (s_instrs ex_sfs) -> respects ex_sem ex_fp i.
Proof.
  intros Hi. simpl in Hi. destruct Hi as [<-|[<-|[<-|[<-|[]]]]];
  constructor; unfold op_denote; cbn; try reflexivity; try discriminate.
  all: intros.
  all: repeat match goal with
       | args : list Z |- _ => destruct args as [|? args]; cbn in *; try discriminate; try reflexivity
       end.
  all: try match goal with H : ?b = false |- (if ?b then _ else _) = _ => rewrite H; reflexivity end.
  all: try match goal with H : ?b = true |- (if ?b then _ else _) = _ => rewrite H; reflexivity end.
  all: try (rewrite Z.add_comm; reflexivity).
  all: try match goal with H : forall l, _ -> _ = _ |- [_ ?z] = _ =>
         rewrite (H z); [reflexivity | split; [reflexivity | exists z; auto]] end.
  all: split; reflexivity.
Qed.
Lemma ex_cover e : deps_cover ex_fp (s_deps ex_sfs) (s_instrs ex_sfs) e.
Proof.
  intros n m i j Hn Hi Hj (l & C).
  assert (J : j = ex_instr "SLOAD_0" "SLOAD" ["c"] ["r"] false false None
              /\ i = ex_instr "SSTORE_0" "SSTORE" ["c"; "s0"] [] false true None).
  { destruct n as [|[|[|[|[]]]]]; simpl in Hi; try discriminate; injection Hi as <-;
    destruct m as [|[|[|[|[]]]]]; simpl in Hj; try discriminate; try lia; injection Hj as <-;
    simpl in C; auto;
    (destruct C as [[C1 C2]|[C1 C2]];
     first [ discriminate C1 | discriminate C2
           | destruct C2 as [[C2 _]|C2]; discriminate C2
           | destruct C1 as [C1 _]; discriminate C1 ]). }
  destruct J as [-> ->]. apply t_step. simpl. auto.
Qed.
Lemma ex_gets (r0 e : string -> Z) : vgets_ok ex_ids r0 e.
Proof.
  intros pre id post x E G. left. exists "VSET(c)".
  assert (x = "c" /\ 4 <= length pre) as [-> L].
  { unfold ex_ids in E.
    do 10 (destruct pre as [|? pre]; [simpl in E; injection E as <- _; vm_compute in G;
       first [discriminate G | injection G as <-; split; [reflexivity | simpl; lia]] |
       simpl in E; try discriminate E; injection E as _ E; try (now destruct pre)]). }
  split; [|reflexivity].
  apply (nth_error_In _ 3). rewrite <- (nth_error_app1 pre (id :: post)) by lia.
  rewrite <- E. reflexivity.
Qed.

(** The hypotheses of the theorems hold here, and the conclusion is the
    expected run: 3 + 4 = 7, slot 7 := 3, result 3 and the constant 255. *)
Example ex_run : exists m,
  mrun ex_sem ex_code {| m_stack := [3; 4; 99]%Z; m_world := fun _ => 0%Z; m_regs := fun _ => 0%Z |} = Some m
  /\ m_stack m = [3; 255; 99]%Z /\ m_world m 7%Z = 3%Z.
Proof.
  pose (e0 := fun x => if String.eqb x "s0" then 3%Z else 4%Z).
  destruct (accepted_code_same_effects _ _ _ ex_emitted _ _ _ ex_sem ex_fp ex_respects e0
             (fun _ => 0%Z) [99%Z] (fun _ => 0%Z) (ex_cover _) (ex_gets _ _)) as (m & R & S & W).
  exists m. split; [exact R|]. split; [rewrite S; reflexivity | rewrite W; reflexivity].
Qed.
Example ex_effects_once : exists pre post,
  ex_ids = pre ++ "SSTORE_0" :: post /\ ~ In "SSTORE_0" pre /\ ~ In "SSTORE_0" post.
Proof.
  apply (accepted_effects_once ex_sfs ex_ids false (em_accepted _ _ _ _ ex_emitted)
           (ex_instr "SSTORE_0" "SSTORE" ["c"; "s0"] [] false true None)); simpl; auto.
Qed.
Example ex_rejects_swapped_order :
  check_execution_from_ids ex_sfs
    ["DUP1"; "SWAP2"; "ADD_0"; "VSET(c)"; "PUSH_0"; "VGET(c)"; "SLOAD_0"; "SWAP2"; "VGET(c)"; "SSTORE_0"; "SWAP1"] false
  = Raise AssertionError.
Proof. vm_compute. reflexivity. Qed.

(* ------------------------------------------------------------------ *)
(** C05.  The validator alone does not bound the depth: it accepts SWAP17 (and
    SWAP0), code on which the machine is stuck. *)
Definition deep_src : list string := map str_nat (seq 0 20).
Definition deep_sfs (tgt : list string) : sfs :=
  {| s_src := deep_src; s_tgt := tgt; s_instrs := []; s_deps := [] |}.
Theorem validator_depth_refuted :
  exists s ids code, wf_sfs s = true /\ ids_ok ids = true
    /\ check_execution_from_ids s ids false = Ok true
    /\ asm_from_ids (s_instrs s) ids = Ok code
    /\ forall V Loc LV (sem : semantics V Loc LV) m, mrun sem code m = None.
Proof.
  exists (deep_sfs (match run_symbolic ["SWAP17"] [] deep_src with Ok t => t | _ => [] end)), ["SWAP17"],
         [{| a_name := "SWAP17"; a_value := None |}].
  repeat split; try (vm_compute; reflexivity).
Qed.
Print Assumptions validator_depth_refuted.
Example validator_accepts_swap0 :
  check_execution_from_ids (deep_sfs deep_src) ["SWAP0"] false = Ok true.
Proof. vm_compute. reflexivity. Qed.

(** The sequence finally returned by the synthesizer (whatever its search
    produced) only contains DUPk and SWAPk with 1 <= k <= 16. *)
Theorem synthesizer_depth_bounded :
  forall r deps_ok acc ext out, greedy_tail 16 r deps_ok acc ext = Ok (Some out) ->
  forall id, In id (map snd out) ->
  (startswith "SWAP" id = true -> exists k, py_int (sdrop 4 id) = Some k /\ (1 <= k <= 16)%Z)
  /\ (startswith "DUP" id = true -> exists k, py_int (sdrop 3 id) = Some k /\ (1 <= k <= 16)%Z).
Proof.
  intros r d a ext out H id Hid. apply greedy_tail_bound in H.
  split; intros K.
  - destruct (check_dup_swap_depth _ _ H id Hid (or_introl K)) as (n & E & B).
    unfold depth_of in E. rewrite K in E. eauto.
  - destruct (check_dup_swap_depth _ _ H id Hid (or_intror K)) as (n & E & B).
    unfold depth_of in E. destruct (startswith "SWAP" id) eqn:S; [|rewrite K in E; eauto].
    exfalso. eapply (prefix_clash "SWAP" "DUP" id); simpl; eauto; congruence.
Qed.
Print Assumptions synthesizer_depth_bounded.
Example synthesizer_depth_bounded_case :
  greedy_tail 16 [("DUP16", "DUP16"); ("ADD", "ADD_0"); ("SWAP1", "SWAP1"); ("SWAP1", "SWAP1")] true true
    (Some ([("DUP16", "DUP16"); ("SWAP1", "SWAP1")], true))
  = Ok (Some [("DUP16", "DUP16"); ("ADD", "ADD_0")])
  /\ greedy_tail 16 [("DUP17", "DUP17")] true true None = Ok None
  /\ greedy_tail 16 [("DUP16", "DUP16"); ("ADD", "ADD_0")] true true (Some ([("SWAP0", "SWAP0")], true)) = Ok None.
Proof. vm_compute. auto. Qed.

(* ------------------------------------------------------------------ *)
(** C06.  [tr] is the translation of ids to assembly items; the clean-up works
    on two parallel lists, opcode names and ids. *)
Theorem cleanup_preserves_runs :
  forall (r : list (string * string)) (tr : string -> asm),
  (forall n i, In (n, i) r -> (n = "SWAP1" -> i = "SWAP1") /\ (n = "DUP1" -> i = "DUP1")) ->
  tr "SWAP1" = {| a_name := "SWAP1"; a_value := None |} ->
  tr "DUP1" = {| a_name := "DUP1"; a_value := None |} ->
  forall V Loc LV (sem : semantics V Loc LV) m m',
  mrun sem (map tr (map snd r)) m = Some m' ->
  mrun sem (map tr (map snd (remove_useless r))) m = Some m'
  /\ length (remove_useless r) <= length r.
Proof.
  intros r tr NM T1 T2 V Loc LV sem m m' H. split; [|apply remove_useless_length].
  apply remove_useless_machine; auto. intros [n i] Hx. apply NM; auto.
Qed.
Print Assumptions cleanup_preserves_runs.

Theorem cleanup_preserves_symbolic_runs :
  forall (r : list (string * string)) ui st st',
  (forall n i, In (n, i) r -> (n = "SWAP1" -> i = "SWAP1") /\ (n = "DUP1" -> i = "DUP1")) ->
  run_symbolic (map snd r) ui st = Ok st' ->
  run_symbolic (map snd (remove_useless r)) ui st = Ok st'.
Proof. intros r ui st st' NM. apply remove_useless_symbolic. intros [n i] Hx. apply NM; auto. Qed.
Print Assumptions cleanup_preserves_symbolic_runs.

(** ... and it leaves no SWAP1 SWAP1 and no DUP1 SWAP1 behind. *)
Theorem cleanup_complete :
  forall r pre a b post, map fst (remove_useless r) = pre ++ a :: b :: post ->
  ~ (b = "SWAP1" /\ (a = "SWAP1" \/ a = "DUP1")).
Proof.
  intros r pre a b post E [-> K]. pose proof (remove_useless_complete r) as C. rewrite E in C.
  clear E. induction pre as [|c pre IH].
  - simpl in C. unfold redundant_pair in C. destruct K as [-> | ->]; discriminate C.
  - apply IH. cbn [app no_redundant] in C. destruct pre; simpl in *; apply andb_true_iff in C; tauto.
Qed.
Print Assumptions cleanup_complete.
Example cleanup_case :
  remove_useless [("SWAP1","SWAP1"); ("SWAP1","SWAP1"); ("SWAP1","SWAP1"); ("DUP1","DUP1"); ("SWAP1","SWAP1");
                  ("ADD","ADD_0"); ("SWAP2","SWAP2"); ("SWAP1","SWAP1"); ("SWAP1","SWAP1"); ("SWAP2","SWAP2")]
  = [("SWAP1","SWAP1"); ("DUP1","DUP1"); ("ADD","ADD_0"); ("SWAP2","SWAP2"); ("SWAP2","SWAP2")].
Proof. reflexivity. Qed.
