(** C07, C08, C09: the order constraints the compiler derives for a block keep
    every pair of conflicting accesses in order. *)
From Coq Require Import Relations.
From Verif Require Import Base Lexical DepsModel DepsSpec DepsProofs.
Open Scope string_scope.
Open Scope list_scope.

(** C08.  Two instructions that may touch a common memory byte, one of them
    writing, are always ordered. *)
Theorem memory_dependencies_sound : forall instrs deps,
  compute_memory_dependences instrs = Ok deps ->
  forall m n i j e, m < n ->
  nth_error instrs m = Some i -> nth_error instrs n = Some j ->
  mem_conflict e i j -> In (m, n) deps.
Proof. exact memory_deps_sound. Qed.

(** C07, the true part: two accesses to a slot, one writing, are ordered unless
    the slot of one of them is computed from the slot of the other, or one of
    them is a contract creation. *)
Theorem storage_dependencies_sound_partial : forall instrs deps,
  compute_storage_dependences instrs = Ok deps ->
  forall m n i j e, m < n ->
  nth_error instrs m = Some i -> nth_error instrs n = Some j ->
  slot_conflict "sload" "sstore" e i j ->
  ~ is_create i -> ~ is_create j -> ~ slots_related instrs i j ->
  In (m, n) deps.
Proof.
  intros. eapply (slot_deps_sound "sload" "sstore"); eauto; try reflexivity; simpl; intuition congruence.
Qed.

Theorem transient_dependencies_sound_partial : forall instrs deps,
  compute_transient_dependences instrs = Ok deps ->
  forall m n i j e, m < n ->
  nth_error instrs m = Some i -> nth_error instrs n = Some j ->
  slot_conflict "tload" "tstore" e i j ->
  ~ is_create i -> ~ is_create j -> ~ slots_related instrs i j ->
  In (m, n) deps.
Proof.
  intros. eapply (slot_deps_sound "tload" "tstore"); eauto; try reflexivity; simpl; intuition congruence.
Qed.

(** C07 as stated is false: sstore(x, v); y := add(x, 0); z := sload(y).  When
    every variable holds the value of its instruction both accesses hit slot x,
    yet nothing orders them. *)
Definition related_block : list cins :=
  [ {| c_op := "sstore"; c_in := ["x"; "v"]; c_out := []; c_lit := None |};
    {| c_op := "add"; c_in := ["x"; "0x00"]; c_out := ["y"]; c_lit := None |};
    {| c_op := "sload"; c_in := ["y"]; c_out := ["z"]; c_lit := None |} ].
Theorem storage_dependencies_refuted : exists instrs i j e,
  nth_error instrs 0 = Some i /\ nth_error instrs 2 = Some j
  /\ (exists k, nth_error instrs 1 = Some k /\ c_op k = "add" /\ c_out k = ["y"] /\ c_in k = ["x"; "0x00"])
  /\ e "y" = (e "x" + 0)%Z /\ arg_val e "0x00" = Some 0%Z
  /\ slot_conflict "sload" "sstore" e i j
  /\ compute_storage_dependences instrs = Ok [].
Proof.
  exists related_block. eexists _, _, (fun _ => 7%Z).
  split; [reflexivity|]. split; [reflexivity|].
  split; [eexists; split; [reflexivity|]; repeat split|].
  split; [reflexivity|]. split; [reflexivity|]. split; [|vm_compute; reflexivity].
  exists 7%Z. left. split.
  - left. split; [reflexivity|]. exists "x". split; reflexivity.
  - left. left. split; [reflexivity|]. exists "y". split; reflexivity.
Qed.

(** The same happens with a creation, whose constructor may call back. *)
Theorem create_storage_refuted : exists instrs i j,
  nth_error instrs 0 = Some i /\ nth_error instrs 1 = Some j
  /\ (forall e, slot_conflict "sload" "sstore" e i j)
  /\ compute_storage_dependences instrs = Ok [] /\ compute_memory_dependences instrs = Ok []
  /\ compute_transient_dependences instrs = Ok [] /\ compute_gas_dependences instrs = Ok [].
Proof.
  exists [ {| c_op := "create"; c_in := ["0x00"; "p"; "n"]; c_out := ["a"]; c_lit := None |};
           {| c_op := "sload"; c_in := ["0x00"]; c_out := ["r"]; c_lit := None |} ].
  eexists _, _. split; [reflexivity|]. split; [reflexivity|]. split; [|vm_compute; auto].
  intros e. exists 0%Z. left. split.
  - right. right. simpl. unfold is_create. simpl. auto.
  - left. left. split; [reflexivity|]. exists "0x00". split; reflexivity.
Qed.

(** C09, the true part: external calls never swap with each other, nor with
    storage accesses, nor with transient storage accesses. *)
Lemma calls_slot_ordered load store : mem load call_ops = false -> mem store call_ops = false ->
  forall instrs deps, slot_dependences [load; store] instrs = Ok deps ->
  forall m n i j, m < n -> nth_error instrs m = Some i -> nth_error instrs n = Some j ->
  (is_call i \/ is_call j) ->
  (is_call i \/ In (c_op i) [load; store]) -> (is_call j \/ In (c_op j) [load; store]) ->
  In (m, n) deps.
Proof.
  intros Nl Ns instrs sto H m n i j Hmn Hm Hn Cij Ti Tj. unfold slot_dependences in H.
  apply bind_ok in H as (acc & Hacc & H). injection H as <-.
  destruct (collect_pair _ _ _ _ _ _ _ Hacc Hmn Hm Hn) as (xs & ys & E1 & E2 & P).
  assert (K : forall pre k x zs, slot_entry [load; store] pre k x = Ok zs ->
     is_call x \/ In (c_op x) [load; store] ->
     exists e t, In (k, e, t) zs /\ (is_call x -> e = EVar "inf" /\ t = Some "write")).
  { intros pre k x zs E T. assert (D : In (c_op x) [load; store] -> ~ is_call x).
    { intros Q C. apply call_is_call_ops in C. apply mem_In in C.
      destruct Q as [Q|[Q|[]]]; rewrite <- Q in C; congruence. }
    destruct (slot_entry_cases load store _ _ _ _ E)
      as [(v & ex & I & _ & _ & ->)|[(I & C & ->)|(I & C & ->)]]; [| |tauto].
    - eexists _, _. split; [left; reflexivity|]. intros. exfalso. apply D; auto.
    - eexists _, _. split; [left; reflexivity|]. auto. }
  destruct (K _ _ _ _ E1 Ti) as (e1 & t1 & I1 & W1). destruct (K _ _ _ _ E2 Tj) as (e2 & t2 & I2 & W2).
  apply in_map_iff. exists ((m, e1, t1), (n, e2, t2)). split; [reflexivity|]. apply filter_In.
  split; [apply P; auto|]. cbn. destruct Cij as [C|C].
  - destruct (W1 C) as [-> ->]. destruct e2; reflexivity.
  - destruct (W2 C) as [-> ->]. unfold generate_dep. rewrite orb_true_r. destruct e1; reflexivity.
Qed.

Theorem calls_ordered_partial : forall instrs sto tra,
  compute_storage_dependences instrs = Ok sto ->
  compute_transient_dependences instrs = Ok tra ->
  forall m n i j, m < n -> nth_error instrs m = Some i -> nth_error instrs n = Some j ->
  (is_call i \/ is_call j) ->
  ((is_call i \/ In (c_op i) ["sload"; "sstore"]) -> (is_call j \/ In (c_op j) ["sload"; "sstore"]) -> In (m, n) sto)
  /\ ((is_call i \/ In (c_op i) ["tload"; "tstore"]) -> (is_call j \/ In (c_op j) ["tload"; "tstore"]) -> In (m, n) tra).
Proof.
  intros instrs sto tra H1 H2 m n i j Hmn Hm Hn C. split; intros Ti Tj.
  - eapply (calls_slot_ordered "sload" "sstore"); eauto; reflexivity.
  - eapply (calls_slot_ordered "tload" "tstore"); eauto; reflexivity.
Qed.

(** C09 as stated is false: two events are never ordered, although a log is an
    observable effect; nor is an event ordered with a call. *)
Theorem events_unordered_refuted : forall k1 k2 i j e r,
  In k1 ["log0"; "log1"; "log2"; "log3"; "log4"] -> In k2 ["log0"; "log1"; "log2"; "log3"; "log4"] ->
  c_op i = k1 -> c_op j = k2 ->
  c_in i = "0x00" :: "0x20" :: e -> c_in j = "0x00" :: "0x20" :: r ->
  compute_storage_dependences [i; j] = Ok [] /\ compute_memory_dependences [i; j] = Ok []
  /\ compute_transient_dependences [i; j] = Ok [] /\ compute_gas_dependences [i; j] = Ok [].
Proof.
  intros k1 k2 [op1 in1 out1 lit1] [op2 in2 out2 lit2] e r H1 H2 E1 E2 I1 I2. cbn in *. subst.
  unfold compute_storage_dependences, compute_transient_dependences, slot_dependences,
    compute_memory_dependences, compute_gas_dependences.
  cbn [collect app]. unfold slot_entry, mem_entry, range_of, arg, expr_of.
  destruct H1 as [<-|[<-|[<-|[<-|[<-|[]]]]]]; destruct H2 as [<-|[<-|[<-|[<-|[<-|[]]]]]];
    vm_compute; auto.
Qed.

(** Dependencies go from earlier to later positions of the block. *)
Theorem dependencies_forward : forall instrs sto tra mem,
  compute_storage_dependences instrs = Ok sto ->
  compute_transient_dependences instrs = Ok tra ->
  compute_memory_dependences instrs = Ok mem ->
  forall u v, In (u, v) (sto ++ tra ++ mem) -> u < v < length instrs.
Proof.
  intros instrs sto tra mm H1 H2 H3 u v H. apply in_app_iff in H as [H|H].
  - eapply slot_deps_forward; [exact H1|auto].
  - apply in_app_iff in H as [H|H]; [eapply slot_deps_forward; [exact H2|auto]|eapply memory_deps_forward; eauto].
Qed.

(** The reads of the remaining gas are ordered among themselves, and nothing
    else is ordered by them. *)
Theorem gas_reads_keep_order : forall instrs deps, compute_gas_dependences instrs = Ok deps ->
  forall u v, In (u, v) deps <-> u < v /\ exists i j, nth_error instrs u = Some i /\ nth_error instrs v = Some j
    /\ c_op i = "gas"%string /\ c_op j = "gas"%string.
Proof. exact gas_deps_spec. Qed.
Print Assumptions gas_reads_keep_order.
Example gas_reads_example :
  let g x := {| c_op := "gas"; c_in := []; c_out := [x]; c_lit := None |} in
  let k := {| c_op := "add"; c_in := ["a"; "b"]; c_out := ["s"]; c_lit := None |} in
  compute_gas_dependences [g "a"; g "b"; k; g "c"]%string = Ok [(0, 1); (0, 3); (1, 3)].
Proof. vm_compute. reflexivity. Qed.

(** The transitive reduction keeps exactly the same (transitive) order, and
    keeps no edge implied by others. *)
Theorem reduction_preserves_order : forall deps,
  (forall u v, In (u, v) deps -> u < v) ->
  (forall u v, clos_trans nat (fun a b => In (a, b) deps) u v
           <-> clos_trans nat (fun a b => In (a, b) (simplify_dependences deps)) u v)
  /\ incl (simplify_dependences deps) deps /\ NoDup (simplify_dependences deps)
  /\ (forall u v w, In (u, v) (simplify_dependences deps) ->
        clos_trans nat (fun a b => In (a, b) deps) u w ->
        clos_trans nat (fun a b => In (a, b) deps) w v -> False).
Proof.
  intros deps F. split; [apply simplify_path; exact F|]. split.
  - intros [u v] H. apply simplify_edge in H. tauto.
  - split; [apply NoDup_filter, dedup_NoDup|]. apply simplify_minimal; exact F.
Qed.

(** The analysis always answers on a block in which variables are assigned
    once, before their uses, literals are hexadecimal and instructions have
    their arguments. *)
Theorem dependencies_total : forall instrs,
  straight instrs -> lits_ok instrs -> (forall i, In i instrs -> arity_ok i) ->
  (exists d, compute_storage_dependences instrs = Ok d)
  /\ (exists d, compute_transient_dependences instrs = Ok d)
  /\ (exists d, compute_memory_dependences instrs = Ok d)
  /\ (exists d, compute_gas_dependences instrs = Ok d).
Proof. exact deps_total. Qed.

(** Non-vacuity: a block with overlapping and disjoint ranges. *)
Definition ex_block : list cins :=
  [ {| c_op := "mstore"; c_in := ["0x00"; "a"]; c_out := []; c_lit := None |};
    {| c_op := "mload"; c_in := ["0x20"]; c_out := ["b"]; c_lit := None |};
    {| c_op := "keccak256"; c_in := ["0x1f"; "0x01"]; c_out := ["h"]; c_lit := None |};
    {| c_op := "sstore"; c_in := ["h"; "b"]; c_out := []; c_lit := None |};
    {| c_op := "sload"; c_in := ["0x07"]; c_out := ["d"]; c_lit := None |};
    {| c_op := "call"; c_in := ["g"; "t"; "0x00"; "0x40"; "0x04"; "0x10"; "0x20"]; c_out := ["ok"]; c_lit := None |} ].
Example ex_memory : compute_memory_dependences ex_block = Ok [(0, 2); (0, 5); (1, 5); (2, 5)].
Proof. vm_compute. reflexivity. Qed.
Example ex_storage : compute_storage_dependences ex_block = Ok [(3, 4); (3, 5); (4, 5)].
Proof. vm_compute. reflexivity. Qed.
Example ex_reduced : simplify_dependences [(3, 4); (3, 5); (4, 5)] = [(3, 4); (4, 5)].
Proof. vm_compute. reflexivity. Qed.
Example ex_conflict : exists i j, nth_error ex_block 0 = Some i /\ nth_error ex_block 2 = Some j
  /\ mem_conflict (fun _ => 0%Z) i j.
Proof.
  eexists _, _. split; [reflexivity|]. split; [reflexivity|]. exists 31%Z. left. split.
  - right. exists (0, Const 32). split; [simpl; auto|]. exists 0%Z, 32%Z. cbn.
    split; [exists "0x00"; split; reflexivity|]. split; [reflexivity|lia].
  - left. exists (0, Arg 1). split; [simpl; auto|]. exists 31%Z, 1%Z. cbn.
    split; [exists "0x1f"; split; reflexivity|]. split; [exists "0x01"; split; reflexivity|lia].
Qed.
Example ex_slot_conflict : exists i j, nth_error ex_block 3 = Some i /\ nth_error ex_block 4 = Some j
  /\ slot_conflict "sload" "sstore" (fun _ => 7%Z) i j /\ ~ is_create i /\ ~ is_create j.
Proof.
  eexists _, _. split; [reflexivity|]. split; [reflexivity|]. split.
  - exists 7%Z. left. split.
    + left. split; [reflexivity|]. exists "h". split; reflexivity.
    + left. left. split; [reflexivity|]. exists "0x07". split; reflexivity.
  - unfold is_create. simpl. intuition discriminate.
Qed.
Example ex_unrelated : exists i j, nth_error ex_block 3 = Some i /\ nth_error ex_block 4 = Some j
  /\ ~ slots_related ex_block i j.
Proof.
  eexists _, _. split; [reflexivity|]. split; [reflexivity|].
  intros (a & b & Ha & Hb & R). cbn in Ha, Hb. injection Ha as <-. injection Hb as <-.
  assert (K : forall x y, computed_from ex_block x y ->
     (x <> "0x07") /\ (x = "h" -> y = "0x1f" \/ y = "0x01") /\ (In x ["0x1f"; "0x01"] -> False)).
  { intros x y H. induction H as [x y (i & Hi & Ho & Hx)|x y z H1 IH1 H2 IH2].
    - simpl in Hi. decompose [or] Hi; try contradiction; subst i; cbn in *;
        intuition (subst; try discriminate; auto).
    - destruct IH1 as (A1 & A2 & A3). destruct IH2 as (B1 & B2 & B3). repeat split; auto.
      intros E. specialize (A2 E). exfalso. apply B3. simpl. destruct A2 as [->| ->]; auto. }
  destruct R as [R|R]; apply K in R; destruct R as (A & B & C).
  - destruct (B eq_refl); discriminate.
  - apply A. reflexivity.
Qed.
Example ex_straight : straight ex_block /\ lits_ok ex_block.
Proof.
  split; [split|].
  - intros m n i j v Hm Hn Ho Hi.
    do 7 (try destruct m as [|m]); try discriminate Hm; cbn in Hm; injection Hm as <-; cbn in Ho; try tauto;
    repeat (destruct Ho as [<-|Ho]; [|try tauto]);
    do 7 (try destruct n as [|n]); try discriminate Hn; cbn in Hn; injection Hn as <-; cbn in Hi;
    decompose [or] Hi; try discriminate; try contradiction; lia.
  - intros m n i j v Hm Hn Ho Hi.
    do 7 (try destruct m as [|m]); try discriminate Hm; cbn in Hm; injection Hm as <-; cbn in Ho; try tauto;
    repeat (destruct Ho as [<-|Ho]; [|try tauto]);
    do 7 (try destruct n as [|n]); try discriminate Hn; cbn in Hn; injection Hn as <-; cbn in Hi;
    decompose [or] Hi; try discriminate; try contradiction; lia.
  - intros i v Hi Hv Hx. simpl in Hi. decompose [or] Hi; try contradiction; subst i; cbn in Hv;
      decompose [or] Hv; try contradiction; subst v; try discriminate Hx; vm_compute; discriminate.
Qed.

Print Assumptions memory_dependencies_sound.
Print Assumptions storage_dependencies_sound_partial.
Print Assumptions transient_dependencies_sound_partial.
Print Assumptions storage_dependencies_refuted.
Print Assumptions create_storage_refuted.
Print Assumptions calls_ordered_partial.
Print Assumptions events_unordered_refuted.
Print Assumptions dependencies_forward.
Print Assumptions reduction_preserves_order.
Print Assumptions dependencies_total.
