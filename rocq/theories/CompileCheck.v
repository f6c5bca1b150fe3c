(** The conditions of C52 on what the later stages have found can be checked: a
    boolean function for them, and that they hold when it says yes. *)
From Coq Require Import Relations.
From Verif Require Import Base Lexical SymExecModel AsmModel MachineSpec FootprintSpec DepsModel DepsSpec GreedyTailModel SpecModel SpecSem SpecDce SpecCheck BlockSpec
  UtilModel UtilProps LiveModel CfgModel JumpModel EmitModel EmitSpec EmitExamples RegsSpec ProgSem ProgSpec JumpSpec JumpExamples ObjProgram CompileSpec.
Open Scope string_scope. Open Scope list_scope.

(** Sets of names closed under [next]. *)
Definition add_all (s l : list string) : list string := fold_left (fun s x => if mem x s then s else s ++ [x]) l s.
Fixpoint rounds (n : nat) (next : list string -> list string) (s : list string) : list string :=
  match n with O => s | S n => rounds n next (add_all s (next s)) end.
Lemma add_all_In s l x : In x (add_all s l) -> In x s \/ In x l.
Proof.
  unfold add_all. revert s. induction l as [|y l IH]; intros s; cbn [fold_left]; [auto|]. intros H. apply IH in H as [H|H]; [|right; right; exact H].
  destruct (mem y s); [auto|]. apply in_app_iff in H as [H|[<-|[]]]; [auto|right; left; reflexivity].
Qed.
Lemma rounds_ind (P : string -> Prop) next : (forall s, (forall x, In x s -> P x) -> forall x, In x (next s) -> P x) ->
  forall n s, (forall x, In x s -> P x) -> forall x, In x (rounds n next s) -> P x.
Proof.
  intros N. induction n as [|n IH]; intros s H x; cbn [rounds]; [apply H|]. apply IH. intros y Hy. apply add_all_In in Hy as [Hy|Hy]; [auto|exact (N s H y Hy)].
Qed.

(** ** One block. *)
Definition args_of (instrs : list cins) (s : list string) : list string :=
  flat_map (fun i => if existsb (fun x => mem x s) (c_out i) then c_in i else []) instrs.
Definition writesb (op : string) : bool := existsb (evm_writes op (repeat 1%Z 8)) [Byte 1; Slot 1; TSlot 1; Elsewhere].
Definition needs (instrs : list cins) (target : list string) : list string :=
  rounds (length instrs) (args_of instrs) (target ++ flat_map (fun i => if writesb (c_op i) then c_in i else []) instrs).
Lemma needs_ok instrs target x : In x (needs instrs target) -> needed instrs target x.
Proof.
  apply rounds_ind.
  - intros s H y Hy. unfold args_of in Hy. apply in_flat_map in Hy as (i & Hi & Hy). destruct (existsb _ (c_out i)) eqn:Q; [|destruct Hy].
    apply existsb_exists in Q as (z & Hz & Q). apply mem_In, H in Q. exact (NeedResult _ _ i y z Hi Hy Hz Q).
  - intros y Hy. apply in_app_iff in Hy as [Hy|Hy]; [now apply NeedTarget|]. apply in_flat_map in Hy as (i & Hi & Hy).
    destruct (writesb (c_op i)) eqn:Q; [|destruct Hy]. unfold writesb in Q. apply existsb_exists in Q as (l & _ & Q). exact (NeedEffect _ _ i y _ l Hi Hy Q).
Qed.
Definition usedb (instrs : list cins) (target : list string) : bool :=
  let s := needs instrs target in forallb (fun i => negb (mem (c_op i) load_names) || existsb (fun x => mem x s) (c_out i)) instrs.
Lemma usedb_ok instrs target : usedb instrs target = true -> loads_used instrs target.
Proof.
  unfold usedb. cbv zeta. rewrite forallb_forall. intros H i Hi Ho. specialize (H i Hi). apply mem_In in Ho. rewrite Ho in H. cbn [negb orb] in H.
  apply existsb_exists in H as (x & Hx & H). exists x. split; [exact Hx|]. apply needs_ok, mem_In, H.
Qed.

Definition sources (instrs : list cins) (a : string) : list string := rounds (length instrs) (args_of instrs) (args_of instrs [a]).
Definition computedb (instrs : list cins) (a b : string) : bool :=
  let s := sources instrs a in
  negb (forallb (fun x => mem x s) (args_of instrs [a]) && forallb (fun x => mem x s) (args_of instrs s) && negb (mem b s)).
Lemma computedb_ok instrs a b : computedb instrs a b = false -> ~ computed_from instrs a b.
Proof.
  unfold computedb. cbv zeta. rewrite negb_false_iff, !andb_true_iff, !forallb_forall, negb_true_iff, mem_false. intros ((A & C) & N) R. apply N. clear N.
  assert (ST : forall x y s, In x s -> uses instrs x y -> In y (args_of instrs s)).
  { intros x y s Hx (i & Hi & Ho & Hy). unfold args_of. apply in_flat_map. exists i. split; [exact Hi|].
    assert (Q : existsb (fun x => mem x s) (c_out i) = true) by (apply existsb_exists; exists x; split; [exact Ho|now apply mem_In]). rewrite Q. exact Hy. }
  unfold computed_from in R. apply clos_trans_tn1 in R. induction R as [y U|y z U _ IH].
  - apply mem_In, A. eapply ST; [|exact U]. left. reflexivity.
  - apply mem_In, C. eapply ST; [exact IH|exact U].
Qed.
Definition slot_access (i : cins) : bool := mem (c_op i) ["sload"; "sstore"; "tload"; "tstore"].
Definition callb (op : string) : bool := mem op call_names.
Fixpoint elseb (instrs : list cins) : bool :=
  match instrs with
  | [] => true
  | i :: rest =>
      forallb (fun j => (negb (evm_writes (c_op i) [] Elsewhere && evm_reads (c_op j) [] Elsewhere) || callb (c_op i) && callb (c_op j))
                     && (negb (evm_writes (c_op j) [] Elsewhere && evm_reads (c_op i) [] Elsewhere) || callb (c_op j) && callb (c_op i))) rest && elseb rest
  end.
Lemma elseb_ok instrs : elseb instrs = true -> forall m n i j, m <> n -> nth_error instrs m = Some i -> nth_error instrs n = Some j ->
  evm_writes (c_op i) [] Elsewhere = true -> evm_reads (c_op j) [] Elsewhere = true -> In (c_op i) call_names /\ In (c_op j) call_names.
Proof.
  induction instrs as [|k instrs IH]; intros H m n i j N Hm Hn W R; [destruct m; discriminate|]. cbn [elseb] in H. apply andb_true_iff in H as (H & H'). rewrite forallb_forall in H.
  destruct m as [|m], n as [|n]; [now destruct N| | |cbn in Hm, Hn; eapply (IH H' m n); eauto].
  - cbn in Hm, Hn. injection Hm as ->. specialize (H j (nth_error_In _ _ Hn)). rewrite W, R in H. cbn [andb negb orb] in H. apply andb_true_iff in H as (H & _). apply andb_true_iff in H as (A & B). split; now apply mem_In.
  - cbn in Hm, Hn. injection Hn as ->. specialize (H i (nth_error_In _ _ Hm)). rewrite W, R in H. cbn [andb negb orb] in H. apply andb_true_iff in H as (_ & H). apply andb_true_iff in H as (A & B). split; now apply mem_In.
Qed.
Definition orderableb (instrs : list cins) : bool :=
  forallb (fun i => negb (mem (c_op i) ("callcode" :: create_names))) instrs
  && forallb (fun i => negb (slot_access i) || match slot_of i with
       | Some a => forallb (fun j => negb (slot_access j) || match slot_of j with Some b => negb (computedb instrs a b) | None => true end) instrs
       | None => true end) instrs
  && elseb instrs.
Lemma orderableb_ok instrs : orderableb instrs = true -> orderable instrs.
Proof.
  unfold orderableb. rewrite !andb_true_iff, !forallb_forall. intros ((A & B) & C). constructor.
  - intros i Hi. apply mem_false, negb_true_iff, A, Hi.
  - intros i j a b Hi Hj Oi Oj Si Sj. specialize (B i Hi). apply mem_In in Oi. apply mem_In in Oj. unfold slot_access at 1 in B. rewrite Oi, Si in B. cbn [negb orb] in B. rewrite forallb_forall in B. specialize (B j Hj). unfold slot_access in B. rewrite Oj, Sj in B. cbn [negb orb] in B.
    apply computedb_ok, negb_true_iff, B.
  - exact (elseb_ok instrs C).
Qed.

Definition pyval_eq_dec (a b : pyval) : {a = b} + {a <> b}.
Proof. decide equality; [apply Z.eq_dec|apply string_dec]. Defined.
Definition instr_eq_dec (a b : instr) : {a = b} + {a <> b}.
Proof. decide equality; [decide equality; apply list_eq_dec, pyval_eq_dec|apply bool_dec|apply bool_dec|apply list_eq_dec, string_dec|apply list_eq_dec, string_dec|apply string_dec|apply string_dec]. Defined.
Definition sfs_eq_dec (a b : sfs) : {a = b} + {a <> b}.
Proof. decide equality; [apply list_eq_dec; decide equality; apply string_dec|apply list_eq_dec, instr_eq_dec|apply list_eq_dec, string_dec|apply list_eq_dec, string_dec]. Defined.
Definition cinstr_eq_dec (a b : cinstr) : {a = b} + {a <> b}.
Proof. decide equality; [decide equality; apply list_eq_dec, string_dec|apply list_eq_dec, string_dec|apply list_eq_dec, string_dec|apply string_dec]. Defined.

Definition targetb (last : option cins) (final target : list string) : bool :=
  match last with
  | None => list_eqb target final
  | Some i => let n := length (c_out i) in list_eqb (firstn n final) (c_out i) && list_eqb target (c_in i ++ skipn n final)
  end.
Definition compiledb (b : tblock) : bool :=
  let k := t_block b in
  ssa_blockb (p_instrs k) (t_initial b) && orderableb (p_instrs k) && targetb (p_last k) (t_final b) (t_target b)
  && forallb layout_nameb (t_target b) && usedb (p_instrs k) (t_target b)
  && match build_spec (p_instrs k) (p_last k) (t_initial b) (t_final b) with Ok s => if sfs_eq_dec s (t_spec b) then true else false | Raise _ => false end
  && ids_ok (t_ids b) && match check_execution_from_ids (t_spec b) (t_ids b) (t_junk b) with Ok r => r | Raise _ => false end
  && match check_dup_swap 16 (t_ids b) with Ok _ => true | Raise _ => false end
  && match track (t_ids b) (t_slots b) (t_held b) with Some _ => true | None => false end
  && forallb (fun p => user_nameb (snd p) && negb (mem (snd p) (flat_map c_out (p_instrs k)))) (t_held b)
  && forallb (fun i => negb (mem (upper (c_op i)) control_names)) (p_instrs k)
  && SpecCheck.nodupb (t_initial b) && SpecCheck.nodupb (map fst (p_phis k)).
Lemma compiledb_ok b : compiledb b = true -> compiled b.
Proof.
  unfold compiledb. cbv zeta. rewrite !andb_true_iff. intros (((((((((((((A & B) & C) & D) & E) & F) & G) & H) & I) & J) & J2) & K) & L) & M). constructor.
  - now apply ssa_blockb_ok.
  - now apply orderableb_ok.
  - unfold targetb in C. unfold before_split. destruct (p_last (t_block b)) as [i|]; [|now apply list_eqb_eq]. cbv zeta in C. apply andb_true_iff in C as (C1 & C2). apply list_eqb_eq in C1. apply list_eqb_eq in C2.
    exists (skipn (length (c_out i)) (t_final b)). split; [|exact C2]. rewrite <- C1 at 1. symmetry. apply firstn_skipn.
  - now apply layout_nameb_ok.
  - now apply usedb_ok.
  - destruct (build_spec _ _ _ _) as [s|]; [|discriminate]. destruct (sfs_eq_dec s (t_spec b)) as [->|]; [reflexivity|discriminate].
  - exact G.
  - destruct (check_execution_from_ids _ _ _) as [r|]; [now rewrite H|discriminate].
  - destruct (check_dup_swap 16 (t_ids b)) as [[]|]; [reflexivity|discriminate].
  - destruct (track _ _ _); [discriminate|discriminate J].
  - rewrite forallb_forall in J2. intros r x Hx. specialize (J2 (r, x) Hx). cbn [snd] in J2. apply andb_true_iff in J2 as (J3 & J4). split; [now apply user_nameb_ok|now apply mem_false, negb_true_iff].
  - rewrite forallb_forall in K. intros i Hi. apply mem_false, negb_true_iff, K, Hi.
  - now apply nodupb_ok.
  - now apply nodupb_ok.
Qed.

Definition unreadb (dummy : list string) (b : tblock) : bool :=
  let k := t_block b in
  forallb (fun x => forallb (fun i => negb (mem x (c_in i))) (p_instrs k) && match p_last k with Some i => negb (mem x (c_in i)) | None => true end
    && forallb (fun p => negb (String.eqb (fst p) x) && negb (mem x (snd p))) (p_phis k)
    && forallb (fun p => negb (String.eqb (snd p) x)) (t_held b)) dummy.
Lemma unreadb_ok dummy b : unreadb dummy b = true -> unread dummy b.
Proof.
  unfold unreadb, unread. cbv zeta. rewrite forallb_forall. intros H x Hx. specialize (H x Hx). rewrite !andb_true_iff, !forallb_forall in H. destruct H as (((A & B) & C) & D). split; [|split; [|split]].
  - intros i Hi. apply mem_false, negb_true_iff, A, Hi.
  - intros i Hi. rewrite Hi in B. now apply mem_false, negb_true_iff.
  - intros p Hp. specialize (C p Hp). apply andb_true_iff in C as (C1 & C2). split; [now apply String.eqb_neq, negb_true_iff|now apply mem_false, negb_true_iff].
  - intros r Hr. specialize (D (r, x) Hr). cbn [snd] in D. rewrite String.eqb_refl in D. discriminate.
Qed.

(** ** Layouts along an edge. *)
Definition passb (dummy : list string) (phis : list (string * list string)) (k : option nat) (v u : string) : bool :=
  mem u dummy || negb (String.eqb v "bottom") && negb (mem v dummy)
    && match lookup u phis with Some args => match k with Some n => opt_eqb (nth_error args n) (Some v) | None => false end | None => String.eqb u v end.
Lemma passb_ok dummy phis k v u : passb dummy phis k v u = true -> passes dummy phis k v u.
Proof.
  intros H. unfold passb in H. unfold passes. apply orb_true_iff in H as [H|H]; [left; now apply mem_In|]. right. rewrite !andb_true_iff in H. destruct H as ((A & B) & C).
  split; [now apply String.eqb_neq, negb_true_iff|]. split; [now apply mem_false, negb_true_iff|]. destruct (lookup u phis) as [args|]; [|now apply String.eqb_eq].
  destruct k as [n|]; [|discriminate]. exists n. split; [reflexivity|]. destruct (nth_error args n) as [a|]; [|discriminate]. cbn in C. apply String.eqb_eq in C. now rewrite C.
Qed.
Fixpoint passesb (dummy : list string) (phis : list (string * list string)) (k : option nat) (out initial : list string) : bool :=
  match out, initial with
  | [], [] => true
  | v :: out, u :: initial => passb dummy phis k v u && passesb dummy phis k out initial
  | _, _ => false
  end.
Definition agreeb (dummy : list string) (forget : bool) (from : option string) (out : list string) (b : tblock) : bool :=
  let keep := if forget then firstn (length (t_initial b)) out else out in
  passesb dummy (p_phis (t_block b)) (match from with Some f => index_of f (p_entries (t_block b)) | None => None end) keep (t_initial b).
Lemma agreeb_ok dummy forget from out b : agreeb dummy forget from out b = true -> layouts_agree dummy forget from out b.
Proof.
  unfold agreeb, layouts_agree. cbv zeta. intros H.
  assert (P : forall k out initial, passesb dummy (p_phis (t_block b)) k out initial = true -> Forall2 (passes dummy (p_phis (t_block b)) k) out initial).
  { clear. intros k. induction out as [|v out IH]; intros [|u initial] H; cbn [passesb] in H; try discriminate; constructor.
    - apply andb_true_iff in H as (H & _). now apply passb_ok.
    - apply IH. now apply andb_true_iff in H. }
  destruct forget.
  - exists (firstn (length (t_initial b)) out), (skipn (length (t_initial b)) out). split; [symmetry; apply firstn_skipn|]. split; [discriminate|]. now apply P.
  - exists out, []. split; [symmetry; apply app_nil_r|]. split; [reflexivity|]. now apply P.
Qed.

(** ** Registers. *)
Definition zmem (r : Z) (l : list Z) : bool := existsb (Z.eqb r) l.
Lemma zmem_In r l : zmem r l = true <-> In r l.
Proof. unfold zmem. rewrite existsb_exists. split; [intros (x & Hx & E); apply Z.eqb_eq in E; now subst|]. intros H. exists r. split; [exact H|apply Z.eqb_refl]. Qed.
Definition inclb (l l' : list Z) : bool := forallb (fun r => zmem r l') l.
Lemma inclb_ok l l' : inclb l l' = true -> incl l l'.
Proof. unfold inclb. rewrite forallb_forall. intros H r Hr. apply zmem_In, H, Hr. Qed.
Definition staysb (tr : translation) (b : tblock) (p : Z * string) : bool :=
  user_nameb (snd p) && match p_last (t_block b) with
    | Some i => match lookup (c_op i) (t_functions tr) with Some k => negb (zmem (fst p) (t_regs k)) && negb (mem (snd p) (c_out i)) | None => true end
    | None => true end.
Definition heldb (tr : translation) (dummy : list string) (from : string) (b b' : tblock) : bool :=
  forallb (fun ru => existsb (fun p => (fst p =? fst ru)%Z && staysb tr b p
    && passb dummy (p_phis (t_block b')) (index_of from (p_entries (t_block b'))) (snd p) (snd ru)) (held_after b)) (t_held b').
Lemma heldb_ok tr dummy from b b' : heldb tr dummy from b b' = true -> forall r u, In (r, u) (t_held b') ->
  exists v, stays tr b r v /\ passes dummy (p_phis (t_block b')) (index_of from (p_entries (t_block b'))) v u.
Proof.
  unfold heldb. rewrite forallb_forall. intros H r u Hu. specialize (H (r, u) Hu). apply existsb_exists in H as ([q v] & Hq & E). cbn [fst snd] in E. rewrite !andb_true_iff in E. destruct E as ((E1 & E2) & E3).
  apply Z.eqb_eq in E1. subst q. exists v. split; [|now apply passb_ok]. unfold staysb in E2. cbn [fst snd] in E2. apply andb_true_iff in E2 as (E2 & E4). split; [exact Hq|]. split; [now apply user_nameb_ok|].
  intros i k Q L. rewrite Q, L in E4. apply andb_true_iff in E4 as (E5 & E6). split; [|now apply mem_false, negb_true_iff]. intros I. apply zmem_In in I. rewrite I in E5. discriminate.
Qed.

(** ** The graph of a component. *)
Definition next_falls (blocks : list (string * eblock)) (b : string) : list string :=
  match lookup b blocks with Some k => if mem (eb_type k) ["conditional"; "falls_to"; "sub_block"] then opt_list (eb_falls_to k) else [] | None => [] end.
Lemma falls_next blocks b c : falls blocks b c -> In c (next_falls blocks b).
Proof. intros (k & L & T & F). unfold next_falls. apply mem_In in T. rewrite L, T, F. left. reflexivity. Qed.
Definition code_of (fns : list string) (tags : list (string * Z)) (blocks : list (string * eblock)) (b : string) : option (list asm) :=
  match lookup b blocks with
  | Some k =>
      match asm_from_ids (eb_spec k) (eb_ids k), match eb_split k with Some s => asm_for_split_instruction s fns | None => Ok [] end with
      | Ok ids, Ok last => Some ((match lookup b tags with
            | Some t => [{| a_name := "tag"; a_value := Some (upper (str_Z t)) |}; {| a_name := "JUMPDEST"; a_value := None |}]
            | None => [] end) ++ ids ++ last ++ (if String.eqb (eb_type k) "mainExit" then [{| a_name := "STOP"; a_value := None |}] else []))
      | _, _ => None
      end
  | None => None
  end.
Lemma code_of_ok fns tags blocks b code : code_of fns tags blocks b = Some code <-> block_code fns tags blocks b code.
Proof.
  unfold code_of, block_code. split.
  - destruct (lookup b blocks) as [k|] eqn:L; [|discriminate]. destruct (asm_from_ids (eb_spec k) (eb_ids k)) as [ids|] eqn:I; [|discriminate].
    destruct (match eb_split k with Some s => asm_for_split_instruction s fns | None => Ok [] end) as [last|] eqn:S; [|discriminate]. intros [= <-]. exists k, ids, last. split; [reflexivity|]. split; [exact I|]. split; [|reflexivity].
    destruct (eb_split k); [exact S|congruence].
  - intros (k & ids & last & L & I & S & ->). rewrite L, I. destruct (eb_split k); [now rewrite S|now subst last].
Qed.
Definition present (blocks : list (string * eblock)) (o : option string) : bool :=
  match o with Some x => match lookup x blocks with Some _ => true | None => false end | None => false end.
Definition graph_kindb (fns : list string) (blocks : list (string * eblock)) (k : eblock) : bool :=
  let t := eb_type k in
  if String.eqb t "conditional" then present blocks (eb_jump_to k) && present blocks (eb_falls_to k)
  else if String.eqb t "unconditional" then present blocks (eb_jump_to k)
  else if String.eqb t "falls_to" then present blocks (eb_falls_to k)
  else if String.eqb t "sub_block" then present blocks (eb_falls_to k) && match eb_split k with Some s => mem (ci_op s) fns | None => false end
  else if String.eqb t "terminal" then
    match asm_from_ids (eb_spec k) (eb_ids k) with
    | Ok [] => match eb_split k with Some s => if list_eq_dec cinstr_eq_dec (eb_instrs k) [s] then true else false | None => false end
    | _ => true
    end
  else mem t ["FunctionReturn"; "mainExit"].
Definition around (blocks : list (string * eblock)) (start a : string) : list string :=
  rounds (length blocks) (flat_map (fun b => filter (fun c => negb (String.eqb c a)) (succs blocks b))) (if String.eqb start a then [] else [start]).
Definition dominatesb (blocks : list (string * eblock)) (start a b : string) : bool :=
  let s := around blocks start a in
  (String.eqb start a || mem start s) && forallb (fun b => forallb (fun c => mem c (a :: s)) (succs blocks b)) s && negb (mem b s).
Lemma dominatesb_ok blocks start a b : dominatesb blocks start a b = true -> dominates blocks start a b.
Proof.
  unfold dominatesb. cbv zeta. rewrite !andb_true_iff, orb_true_iff, negb_true_iff, mem_false. intros ((A & B) & C) R. apply C. eapply avoid_closed; [|exact B|exact R].
  destruct A as [A|A]; [left; now apply String.eqb_eq|right; now apply mem_In].
Qed.
Definition reached (blocks : list (string * eblock)) (start : string) : list string := rounds (length blocks) (flat_map (succs blocks)) [start].
Definition formedb (fns : list string) (tags : list (string * Z)) (blocks : list (string * eblock)) (start : string) : bool :=
  let r := reached blocks start in
  present blocks (Some start) && contains "Block0" start && mem start r && forallb (fun b => forallb (fun c => mem c r) (succs blocks b)) r
  && forallb (fun b => match code_of fns tags blocks b with Some _ => true | None => false end) r
  && forallb (fun b => match lookup b blocks with
       | Some k => graph_kindb fns blocks k
           && (negb (String.eqb (eb_type k) "conditional") || match eb_jump_to k with
                | Some c => forallb (fun b' => negb (mem c (succs blocks b')) || String.eqb b' b) r && negb (opt_eqb (eb_falls_to k) (Some c))
                | None => true end)
       | None => true end) r
  && forallb (fun b => forallb (fun c =>
       match code_of fns tags blocks c with Some [] => false | _ => true end && negb (String.eqb c b) && negb (String.eqb c start)
       && forallb (fun b' => negb (mem c (next_falls blocks b')) || String.eqb b' b) r
       && forallb (fun d => dominatesb blocks start c d) (next_falls blocks c)) (next_falls blocks b)) r.
Lemma formedb_ok fns tags blocks start : formedb fns tags blocks start = true -> well_formed fns tags blocks start.
Proof.
  unfold formedb. cbv zeta. set (r := reached blocks start). rewrite !andb_true_iff. intros ((((((A & B) & C) & D) & E) & F) & G).
  assert (R : forall b, reachable blocks start b -> In b r) by (apply reach_closed; [now apply mem_In|exact D]). rewrite !forallb_forall in E, F, G.
  assert (PR : forall o, present blocks o = true -> exists x, o = Some x /\ lookup x blocks <> None). { intros [x|]; cbn; [|discriminate]. intros P. exists x. split; [reflexivity|]. destruct (lookup x blocks); discriminate. }
  assert (FA : forall b c, reachable blocks start b -> falls blocks b c ->
    code_of fns tags blocks c <> Some [] /\ c <> b /\ c <> start /\ (forall b', In b' r -> In c (next_falls blocks b') -> b' = b) /\ forall d, In d (next_falls blocks c) -> dominatesb blocks start c d = true).
  { intros b c Rb Fc. specialize (G b (R b Rb)). rewrite forallb_forall in G. specialize (G c (falls_next _ _ _ Fc)). rewrite !andb_true_iff, !negb_true_iff, !forallb_forall in G. destruct G as ((((G1 & G2) & G3) & G4) & G5).
    split; [intros Q; rewrite Q in G1; discriminate|]. split; [now apply String.eqb_neq|]. split; [now apply String.eqb_neq|]. split; [|exact G5].
    intros b' Ib' I. specialize (G4 b' Ib'). apply mem_In in I. rewrite I in G4. cbn [negb orb] in G4. now apply String.eqb_eq. }
  constructor.
  - destruct (PR _ A) as (x & [= <-] & L). auto.
  - intros b Rb. specialize (E b (R b Rb)). destruct (code_of fns tags blocks b) as [code|] eqn:Q; [|discriminate]. exists code. now apply code_of_ok.
  - intros b k Rb L. specialize (F b (R b Rb)). rewrite L in F. apply andb_true_iff in F as (F & _). unfold graph_kindb in F. cbv zeta in F.
    destruct (String.eqb_spec (eb_type k) "conditional"). { apply andb_true_iff in F as (F1 & F2). apply PR in F1 as (j & -> & F1). apply PR in F2 as (f & -> & F2). left. eauto 8. }
    destruct (String.eqb_spec (eb_type k) "unconditional"). { apply PR in F as (j & -> & F). eauto 8. }
    destruct (String.eqb_spec (eb_type k) "falls_to"). { apply PR in F as (j & -> & F). right. right. left. eauto. }
    destruct (String.eqb_spec (eb_type k) "sub_block"). { apply andb_true_iff in F as (F1 & F2). apply PR in F1 as (j & -> & F1). right. right. right. left. split; [assumption|]. split; [eauto|]. destruct (eb_split k) as [s|]; [|discriminate]. exists s. split; [reflexivity|now apply mem_In]. }
    destruct (String.eqb_spec (eb_type k) "terminal").
    { right. right. right. right. left. split; [assumption|]. intros Q. rewrite Q in F. destruct (eb_split k) as [s|]; [|discriminate]. exists s. split; [reflexivity|]. destruct (list_eq_dec cinstr_eq_dec (eb_instrs k) [s]); [assumption|discriminate]. }
    apply mem_In in F as [F|[F|[]]]; auto 8.
  - intros b c Rb Fc Q. apply (proj1 (FA b c Rb Fc)). now apply code_of_ok.
  - intros b b' k c Rb Rb' L T J Go. specialize (F b (R b Rb)). rewrite L in F. apply andb_true_iff in F as (_ & F). rewrite T in F. cbn in F. rewrite J in F. apply andb_true_iff in F as (F1 & F2). rewrite forallb_forall in F1. specialize (F1 b' (R b' Rb')). apply goes_succs, mem_In in Go. rewrite Go in F1. cbn [negb orb] in F1. split; [now apply String.eqb_eq|].
    intros Q. rewrite Q in F2. cbn in F2. rewrite String.eqb_refl in F2. discriminate.
  - intros b b' c Rb Rb' Fc Fc'. symmetry. destruct (FA b c Rb Fc) as (_ & _ & _ & H & _). apply H; [exact (R b' Rb')|exact (falls_next _ _ _ Fc')].
  - intros b Rb Fb. destruct (FA b b Rb Fb) as (_ & N & _). now apply N.
  - intros b Rb Fb. destruct (FA b start Rb Fb) as (_ & _ & N & _). now apply N.
  - intros a b c Ra Fa Fb. destruct (FA a b Ra Fa) as (_ & _ & _ & _ & H). apply dominatesb_ok, H, falls_next, Fb.
Qed.

(** ** Everything. *)
Definition kindb (ob : cobject) (b : cblock) : bool :=
  let fns := map fst (ob_functions ob) in
  if mem (cb_type b) ["unconditional"; "conditional"; "FunctionReturn"] then true
  else match cb_split b with
  | None => typeb b "falls_to" && negb (opt_eqb (cb_falls_to b) None) || typeb b "mainExit"
  | Some i =>
      mem (li_op i) fns && (if opt_eqb (return_name ob (Some (li_op i))) None then mem (cb_type b) ["terminal"; "sub_block"; "falls_to"]
                            else mem (cb_type b) ["sub_block"; "falls_to"] && negb (opt_eqb (cb_falls_to b) None))
      || typeb b "terminal" && mem (li_op i) ["return"; "revert"; "stop"; "selfdestruct"]
  end.
Lemma opt_none o : opt_eqb o None = true <-> o = None.
Proof. destruct o; cbn; split; congruence. Qed.
Lemma opt_some o : negb (opt_eqb o None) = true -> o <> None.
Proof. destruct o; cbn; congruence. Qed.
Lemma kindb_ok ob b : kindb ob b = true -> kind_ok ob b.
Proof.
  unfold kindb. cbv zeta. destruct (mem (cb_type b) _) eqn:M; [intros _; apply Kind_exit; now apply mem_In|]. destruct (cb_split b) as [i|] eqn:S.
  - rewrite orb_true_iff, !andb_true_iff. intros [(F & H)|(T & H)]; [|apply (Kind_stop ob b i); auto; [now apply String.eqb_eq|now apply mem_In]]. apply mem_In in F. destruct (opt_eqb (return_name ob (Some (li_op i))) None) eqn:R.
    + apply opt_none in R. apply (Kind_last_call ob b i); auto. now apply mem_In.
    + apply andb_true_iff in H as (T & N). apply (Kind_call ob b i); auto; [now apply mem_In|now apply opt_some|]. apply opt_some. now rewrite R.
  - rewrite orb_true_iff, andb_true_iff. intros [(T & N)|T]; [apply Kind_fall; auto; [now apply String.eqb_eq|now apply opt_some]|apply Kind_main; auto; now apply String.eqb_eq].
Qed.

(** [calls] has the functions whose registers are considered at calls. *)
Definition block_foundb (calls : translation) (ob : cobject) (res : findings) (dummy : list string) (c : option string) (g : clist) (x : string) (b : cblock) : bool :=
  let inner := match return_name ob c with None => true | Some _ => false end in
  let f := res c x in let tb := tblock_for b f in
  compiledb tb && unreadb dummy tb && kindb ob b && (inner || negb (r_junk f))
  && forallb (fun x' => match lookup x' (cl_blocks g) with Some b' => agreeb dummy inner (Some x) (r_final f) (tblock_for b' (res c x')) | None => true end) (successors b)
  && match cb_split b with Some i => forallb (fun v => negb (mem v (li_outs i))) (skipn (length (li_outs i)) (r_final f)) | None => true end
  && (negb (typeb b "FunctionReturn") || list_eqb (r_final f) [])
  && forallb (fun x' => match lookup x' (cl_blocks g) with Some b' => heldb calls dummy x tb (tblock_for b' (res c x')) | None => true end) (successors b)
  && inclb (r_slots f) (fd_regs res c) && inclb (map fst (r_held f)) (fd_regs res c)
  && match cb_split b with Some i => negb (mem (li_op i) (map fst (ob_functions ob))) || inclb (fd_regs res (Some (li_op i))) (fd_regs res c) | None => true end.
Definition component_foundb (calls : translation) (ob : cobject) (res : findings) (dummy : list string) (cg : option string * clist) : bool :=
  let c := fst cg in let g := snd cg in
  forallb (fun xb => block_foundb calls ob res dummy c g (fst xb) (snd xb)) (cl_blocks g)
  && match return_name ob c with Some r => negb (mem r dummy) | None => true end
  && match cl_start g with
     | Some s => match r_held (res c s) with [] => true | _ => false end && match lookup s (cl_blocks g) with
                 | Some b => agreeb dummy (match return_name ob c with None => true | Some _ => false end) None (params_of ob c) (tblock_for b (res c s))
                 | None => true end
     | None => true end.
Definition generated_withb (calls : translation) (ob : cobject) (tags : list (string * nat)) (res : findings) (dummy : list string) (fuel : nat) : bool :=
  let tr := translation_for ob res in
  forallb (component_foundb calls ob res dummy) (components ob)
  && forallb (fun bs => formedb (map fst (ob_functions ob)) (tag_numbers tags) (fst bs) (snd bs) && (length (fst bs) <=? fuel)%nat)
       (emitted_component (t_main tr) :: map snd (emitted_functions tr)).
Lemma generated_withb_ok calls ob tags res dummy fuel : generated_withb calls ob tags res dummy fuel = true -> generated_with calls ob tags res dummy fuel.
Proof.
  unfold generated_withb. cbv zeta. rewrite andb_true_iff, !forallb_forall. intros (H & HF).
  assert (HC : forall c g, component ob c g -> component_foundb calls ob res dummy (c, g) = true) by (intros c g K; apply H, component_In, K).
  assert (HB : forall c g x b, component ob c g -> lookup x (cl_blocks g) = Some b -> block_foundb calls ob res dummy c g x b = true).
  { intros c g x b K L. apply HC in K. unfold component_foundb in K. cbn [fst snd] in K. rewrite !andb_true_iff, forallb_forall in K. destruct K as ((K & _) & _). apply lookup_In, K in L. exact L. }
  assert (HD : forall c g, component ob c g -> forall r, return_name ob c = Some r -> ~ In r dummy).
  { intros c g K r R. apply HC in K. unfold component_foundb in K. cbn [fst snd] in K. rewrite !andb_true_iff in K. destruct K as ((_ & K) & _). rewrite R in K. now apply mem_false, negb_true_iff. }
  constructor.
  - intros c g x b K L. specialize (HB c g x b K L). unfold block_foundb in HB. cbv zeta in HB. rewrite !andb_true_iff in HB. destruct HB as ((((((((((B & _) & _) & _) & _) & _) & _) & _) & _) & _) & _). now apply compiledb_ok.
  - intros c g x b K L. specialize (HB c g x b K L). unfold block_foundb in HB. cbv zeta in HB. rewrite !andb_true_iff in HB. destruct HB as ((((((((((_ & B) & _) & _) & _) & _) & _) & _) & _) & _) & _). now apply unreadb_ok.
  - intros c r R. destruct c as [f|]; [|discriminate R]. pose proof R as R'. cbn in R'. destruct (lookup f (ob_functions ob)) as [k|] eqn:L; [|discriminate]. apply (HD (Some f) (fn_blocks k)); [now exists k|exact R].
  - intros c g x b K L. specialize (HB c g x b K L). unfold block_foundb in HB. cbv zeta in HB. rewrite !andb_true_iff in HB. destruct HB as ((((((((((_ & _) & B) & _) & _) & _) & _) & _) & _) & _) & _). now apply kindb_ok.
  - intros c g x b K L N. specialize (HB c g x b K L). unfold block_foundb in HB. cbv zeta in HB. rewrite !andb_true_iff in HB. destruct HB as ((((((((((_ & _) & _) & B) & _) & _) & _) & _) & _) & _) & _).
    destruct (return_name ob c); [|now destruct N]. now apply negb_true_iff.
  - intros c g x b x' b' K L I L'. specialize (HB c g x b K L). unfold block_foundb in HB. cbv zeta in HB. rewrite !andb_true_iff, !forallb_forall in HB. destruct HB as ((((((((((_ & _) & _) & _) & B) & _) & _) & _) & _) & _) & _).
    specialize (B x' I). rewrite L' in B. now apply agreeb_ok.
  - intros c g x b x' b' K L I L'. specialize (HB c g x b K L). unfold block_foundb in HB. cbv zeta in HB. rewrite !andb_true_iff, !forallb_forall in HB. destruct HB as ((((((((((_ & _) & _) & _) & _) & _) & _) & B) & _) & _) & _).
    specialize (B x' I). rewrite L' in B. exact (heldb_ok _ _ _ _ _ B).
  - intros c g s K S. apply HC in K. unfold component_foundb in K. cbn [fst snd] in K. rewrite !andb_true_iff in K. destruct K as (_ & K). rewrite S in K. apply andb_true_iff in K as (K & _). destruct (r_held (res c s)); [reflexivity|discriminate].
  - intros c g x b K L. specialize (HB c g x b K L). unfold block_foundb in HB. cbv zeta in HB. rewrite !andb_true_iff in HB. destruct HB as ((((((((((_ & _) & _) & _) & _) & _) & _) & _) & B1) & B2) & B3).
    split; [now apply inclb_ok|]. split; [now apply inclb_ok|]. intros i S I. rewrite S in B3. apply mem_In in I. rewrite I in B3. now apply inclb_ok.
  - intros c g s b K S L. apply HC in K. unfold component_foundb in K. cbn [fst snd] in K. rewrite !andb_true_iff in K. destruct K as (_ & K). rewrite S, L in K. apply andb_true_iff in K as (_ & K). now apply agreeb_ok.
  - intros c g x b i rest v K L S E I. specialize (HB c g x b K L). unfold block_foundb in HB. cbv zeta in HB. rewrite !andb_true_iff in HB. destruct HB as ((((((((((_ & _) & _) & _) & _) & B) & _) & _) & _) & _) & _).
    rewrite S, E, forallb_forall in B. apply mem_false, negb_true_iff, B. rewrite skipn_app, skipn_all, Nat.sub_diag. exact I.
  - intros c g x b K L T. specialize (HB c g x b K L). unfold block_foundb in HB. cbv zeta in HB. rewrite !andb_true_iff in HB. destruct HB as ((((((((((_ & _) & _) & _) & _) & _) & B) & _) & _) & _) & _).
    unfold typeb in B. rewrite T in B. cbn in B. now apply list_eqb_eq.
  - intros blocks start I. specialize (HF (blocks, start) I). apply andb_true_iff in HF as (A & B). cbn [fst snd] in A, B. split; [now apply formedb_ok|now apply Nat.leb_le].
Qed.
Definition generatedb (ob : cobject) (tags : list (string * nat)) (res : findings) (dummy : list string) (fuel : nat) : bool :=
  generated_withb (translation_for ob res) ob tags res dummy fuel.
Lemma generatedb_ok ob tags res dummy fuel : generatedb ob tags res dummy fuel = true -> generated ob tags res dummy fuel.
Proof. unfold generatedb, generated. intros H. exact (generated_withb_ok _ _ _ _ _ _ H). Qed.
