(** A block whose code keeps values in memory: the code does what the block does,
    outside the words used for that. *)
From Coq Require Import Relations.
From Verif Require Import Base Lexical SymExecModel AsmModel MachineSpec GreedyTailModel FootprintSpec LexicalProofs CheckerProofs CheckerSim CheckerProps
  DepsModel SpecModel SpecSem SpecProofs SpecBuild SpecSound SpecDce SpecProps SpecDeps BlockSpec BlockProofs BlockProps UtilModel UtilProps RegModel RegsSpec RegsSim.
Open Scope string_scope. Open Scope list_scope.

Lemma cfg_notin {V LV} (sem : semantics V place LV) p : forall ew x, ~ In x (flat_map c_out p) -> fst (exec_cfg sem p ew) x = fst ew x.
Proof.
  induction p as [|i p IH]; intros [e w] x N; [reflexivity|]. cbn [flat_map] in N. rewrite in_app_iff in N. unfold exec_cfg. cbn [fold_left].
  change (fst (exec_cfg sem p (exec_cins sem i (e, w))) x = e x). rewrite IH by tauto. unfold exec_cins. destruct (cfg_denote _ _ _ _) as [o w']. cbn [fst].
  apply bind_vars_notin. tauto.
Qed.

Section Block.
Variables (instrs : list cins) (initial : list string) (split : option cins) (final : list string) (s : sfs).
Hypothesis HB : ssa_block instrs initial.
Hypothesis HO : orderable instrs.
Hypothesis HF : forall v, In v (stack_before_split split final) -> layout_name v.
Hypothesis HS : build_spec instrs split initial final = Ok s.
Hypothesis HU : loads_used instrs (stack_before_split split final).
Context {V LV : Type}.
Variable sem : semantics V place LV.
Variable val : V -> Z.
Hypothesis HE : evm_like sem val instrs.
Variables (e0 : string -> V) (w0 : place -> LV).
Notation ef := (fst (exec_prog sem (s_instrs s) (e0, w0))).
Notation final_env := (fst (exec_cfg sem instrs (e0, w0))).

(** The values of the specification are those of the block. *)
Lemma spec_values :
  (forall i, In i (s_instrs s) -> exists op k, i_id i = id_of op k) /\
  (forall i, In i (s_instrs s) -> push1 i \/ exists c, In c instrs /\ i_disasm i = upper (c_op c) /\ map ef (i_inpt i) = map (aval sem final_env) (c_in c)) /\
  (forall x, user_name x -> In x (outputs (s_instrs s)) \/ ~ In x (flat_map c_out instrs) -> ef x = final_env x).
Proof.
  unfold build_spec in HS. apply bind_ok in HS as ([[s' pos] unused] & H1 & H). apply bind_ok in H as (deps & H2 & H). injection H as Es.
  destruct (build_sequence_shape instrs initial split final s' pos unused HB HF H1) as (st & extra & S & P & Ep & Ei & K & Tg & A).
  assert (Ei' : s_instrs s = s_instrs s') by (rewrite <- Es; reflexivity). rewrite Ei', Ei. clear Ei' Es.
  set (keep := fun i => negb (mem (i_id i) unused)) in *.
  assert (Sub : forall i, In i (filter keep (b_ui st)) -> In i (b_ui st)) by (intros i Hi; apply filter_In in Hi; tauto).
  pose proof (A V place LV sem e0 w0) as AG.
  destruct (dce_exec sem (b_ui st) keep (si_nodup _ _ _ _ S) (ks_closed _ _ _ K)) with (e := e0) (w := w0) as (D1 & D2).
  { intros i Hi Q args w. destruct (pc_from _ _ P i Hi) as [(z & o & Hp & _)|(k & c & Q1 & (L1 & L2 & L3 & L4 & _) & _)].
    - rewrite (is_push_denote sem i z args w Hp). reflexivity.
    - rewrite L4. apply (block_marked instrs HO sem val HE c); [eapply nth_error_In; eauto|]. rewrite <- L3. destruct (i_storage i) eqn:Sg; [|reflexivity].
      rewrite (ks_storage _ _ _ K i Hi Sg) in Q. discriminate. }
  set (env := fst (exec_prog sem (filter keep (b_ui st)) (e0, w0))) in *. split; [|split].
  - intros i Hi. destruct (si_ids _ _ _ _ S i (Sub i Hi)) as (k & _ & Q). eauto.
  - intros i Hi. destruct (pc_from _ _ P i (Sub i Hi)) as [Q|(k & c & Q1 & Q2 & Q3 & Q4 & Q5)]; [left; exact Q|right]. exists c.
    split; [eapply nth_error_In; eauto|]. split; [apply Q2|]. pose proof Hi as Hi'. apply filter_In in Hi' as [Hi1 Hi2].
    assert (E1 : map env (i_inpt i) = map (fst (exec_prog sem (b_ui st) (e0, w0))) (i_inpt i)).
    { apply map_ext_in. intros x Hx. unfold env. apply D2. intros j Hj Xj. exact (ks_closed _ _ _ K i j x Hi1 Hj Hi2 Hx Xj). }
    rewrite E1. eapply Forall2_map_eq; [exact Q4|]. intros v o Hvi Vo. eapply (val_of_value sem e0 w0 instrs [] extra); eauto.
  - intros x U C. destruct (in_dec string_dec x (outputs (filter keep (b_ui st)))) as [I|I].
    + unfold env. rewrite D2; [apply (proj2 AG); exact U|]. intros j Hj Xj. unfold outputs in I. apply in_flat_map in I as (i & Hi & Xi).
      apply filter_In in Hi as [Hi Ki]. destruct (In_nth_error _ _ Hi) as (n & Hn). destruct (In_nth_error _ _ Hj) as (m & Hm).
      pose proof (si_nodup _ _ _ _ S) as ND. clear - ND Hn Hm Xi Xj Ki. revert n m ND Hn Hm. unfold outputs. generalize (b_ui st). intros l.
      induction l as [|u l IH]; intros n m ND Hn Hm; [destruct n; discriminate|]. cbn [flat_map] in ND.
      assert (D : forall y, In y (i_outpt u) -> In y (flat_map i_outpt l) -> False).
      { intros y. clear - ND. induction (i_outpt u) as [|z zs IHz]; [intros []|]. cbn in ND. inversion ND as [|? ? Nz ND']; subst. intros [<-|Hy] Hl; [apply Nz, in_app_iff; auto|auto]. }
      assert (ND' : NoDup (flat_map i_outpt l)).
      { clear - ND. induction (i_outpt u) as [|z zs IHz]; [exact ND|]. apply IHz. cbn in ND. inversion ND; assumption. }
      destruct n as [|n], m as [|m]; cbn in Hn, Hm.
      * congruence.
      * injection Hn as ->. exfalso. apply (D x Xi). apply in_flat_map. exists j. split; [eapply nth_error_In; eauto|exact Xj].
      * injection Hm as ->. exfalso. apply (D x Xj). apply in_flat_map. exists i. split; [eapply nth_error_In; eauto|exact Xi].
      * eapply IH; eauto.
    + destruct C as [C|C]; [contradiction|]. unfold env. rewrite exec_prog_notin by exact I. rewrite cfg_notin by exact C. reflexivity.
Qed.

(** Arguments keep their values to the end of the block. *)
Lemma spares_final R : block_spares sem val R instrs e0 w0 -> forall c l, In c instrs -> in_registers R l ->
  ~ evm_depends (c_op c) (map val (map (aval sem final_env) (c_in c))) l.
Proof.
  intros Sp c l Hc Hl. apply in_split in Hc as (pre & post & E). specialize (Sp pre c post E l Hl).
  replace (map (aval sem final_env) (c_in c)) with (map (aval sem (fst (exec_cfg sem pre (e0, w0)))) (c_in c)); [exact Sp|].
  apply map_ext_in. intros x Hx. pose proof (ssa_defs _ _ HB pre c post x E Hx) as N. unfold aval.
  assert (Q : fst (exec_cfg sem pre (e0, w0)) x = final_env x).
  { rewrite E. change (pre ++ c :: post) with (pre ++ ([c] ++ post)). unfold exec_cfg. rewrite fold_left_app. symmetry. exact (cfg_notin sem ([c] ++ post) _ x N). }
  rewrite Q. reflexivity.
Qed.
End Block.

Lemma lowered_keeps id : forall ids rs, is_stack_op id = false -> In id ids -> In id (lowered ids rs).
Proof.
  induction ids as [|x ids IH]; intros rs N []; cbn [lowered].
  - subst x. unfold is_stack_op in N. rewrite !orb_false_iff in N. destruct N as [[_ N1] N2].
    destruct (vget_arg id); [discriminate|]. destruct (vset_arg id); [discriminate|]. left. reflexivity.
  - destruct (vget_arg x), (vset_arg x), rs; first [apply in_app_iff; right; auto|right; auto].
Qed.

Lemma map_result_ok {A B} (f : A -> result B) l : (forall x, In x l -> exists y, f x = Ok y) -> exists ys, map_result f l = Ok ys.
Proof.
  induction l as [|x l IH]; intros H; [exists []; reflexivity|]. destruct (H x (or_introl eq_refl)) as (y & Hy).
  destruct IH as (ys & Hys); [intros z Hz; apply H; right; exact Hz|]. exists (y :: ys). cbn. rewrite Hy. cbn. rewrite Hys. reflexivity.
Qed.
Lemma map_result_each {A B} (f : A -> result B) l : forall ys, map_result f l = Ok ys -> forall x, In x l -> exists y, f x = Ok y.
Proof.
  induction l as [|x l IH]; intros ys H z []; cbn in H; apply bind_ok in H as (y & Hy & H); apply bind_ok in H as (ys' & H & _); subst; eauto.
Qed.

Lemma filter_all {A} (f : A -> bool) l : (forall x, In x l -> f x = true) -> filter f l = l.
Proof. induction l as [|x l IH]; intros H; [reflexivity|]. cbn. rewrite (H x (or_introl eq_refl)), IH; [reflexivity|]. intros y Hy. apply H. right. exact Hy. Qed.

Lemma lowered_no_nop : forall ids rs, (forall id, In id ids -> id <> "NOP") -> forall id, In id (lowered ids rs) -> id <> "NOP".
Proof.
  induction ids as [|x ids IH]; intros rs N id H; [destruct H|]. cbn [lowered] in H. assert (N' : forall i, In i ids -> i <> "NOP") by (intros i Hi; apply N; right; exact Hi).
  assert (Nx : x <> "NOP") by (apply N; left; reflexivity).
  destruct (vget_arg x), (vset_arg x), rs; try (destruct H as [<-|H]; [exact Nx|exact (IH _ N' id H)]);
    apply in_app_iff in H as [[<-|[<-|[]]]|H]; try discriminate; exact (IH _ N' id H).
Qed.

(** The code of a block with values in registers.  If the checker accepted the ids,
    every value is fetched from a register that has it, and the block does not
    access the registers, then the code leaves the requested layout on top of the
    untouched rest of the stack, every place outside the registers as the block
    leaves it, and in the registers the variables that were put there. *)
Theorem lowered_block_correct_partial : forall instrs initial split final target s ids rs h hf code junk,
  ssa_block instrs initial -> orderable instrs -> before_split split final target ->
  (forall v, In v target -> layout_name v) -> loads_used instrs target ->
  build_spec instrs split initial final = Ok s ->
  ids_ok ids = true -> check_execution_from_ids s ids junk = Ok true -> check_dup_swap 16 ids = Ok tt ->
  track ids rs h = Some hf -> asm_from_ids (s_instrs s) (lowered ids rs) = Ok code ->
  forall V LV (sem : semantics V place LV) val, evm_like sem val instrs ->
  forall load R, register_ops sem load R -> incl rs R ->
  forall e0 w0 w below regs, block_spares sem val R instrs e0 w0 -> (forall l, ~ in_registers R l -> w l = w0 l) ->
  (forall r x, In (r, x) h -> In r R /\ user_name x /\ ~ In x (flat_map c_out instrs) /\ load r w = e0 x) ->
  let block := exec_cfg sem instrs (e0, w0) in
  exists m out extra, mrun sem code {| m_stack := map e0 initial ++ below; m_world := w; m_regs := regs |} = Some m
    /\ m_stack m = out ++ extra ++ below /\ (junk = false -> extra = [])
    /\ Forall2 (fun v x => v <> "bottom" -> x = aval sem (fst block) v) target out
    /\ (forall l, ~ in_registers R l -> m_world m l = snd block l)
    /\ (forall r x, In (r, x) hf -> user_name x -> load r (m_world m) = fst block x)
    /\ (forall r, In r R -> ~ In r rs -> load r (m_world m) = load r w).
Proof.
  intros instrs initial split final target s ids rs h hf code junk HB HO HT HF HU HS I1 I2 I3 T Hc V LV sem val HE load R HR Hrs e0 w0 w below regs Sp O Hh block.
  destruct (specification_faithful instrs initial split final target s HB HT HF HS) as (E1 & Wf & _).
  pose proof HT as HT'. apply before_split_stack in HT'. rewrite <- HT' in HF, HU.
  destruct (block_dependencies instrs initial split final s HB HO HF HS HU sem val HE e0 w0) as [Rs D].
  destruct (spec_values instrs initial split final s HB HO HF HS sem val HE e0 w0) as (Hids & Hargs & Hval).
  destruct (wf_parts s Wf) as (Nid & Nout & Hdef & Hsrc & Hwfi).
  destruct (acc_parts s ids junk I2) as (stf & Run & _).
  assert (NN : forall id, In id ids -> id <> "NOP").
  { intros id Hid. unfold run_symbolic in Run. apply in_split in Hid as (pre & post & ->). rewrite for_each_app in Run. apply bind_ok in Run as (st1 & _ & Run). cbn [for_each] in Run.
    apply bind_ok in Run as (st2 & Run & _). exact (not_nop s Wf _ _ _ Run). }
  (* the code of the validated ids *)
  assert (Hcode : exists code0, asm_from_ids (s_instrs s) ids = Ok code0 /\ map_result (id_to_asm_bytecode (s_instrs s)) ids = Ok code0).
  { assert (F : filter (fun id => negb (String.eqb id "NOP")) ids = ids) by (apply filter_all; intros id Hid; apply negb_true_iff, String.eqb_neq; auto).
    unfold asm_from_ids. rewrite F. destruct (map_result_ok (id_to_asm_bytecode (s_instrs s)) ids) as (ys & Hys); [|eauto].
    intros id Hid. destruct (is_stack_op id) eqn:SO.
    - assert (NF : find_last_instr id (s_instrs s) = None).
      { apply find_last_none. intros i Hi Ei. destruct (Hwfi i Hi) as [Q _]. rewrite Ei in Q. unfold name_ok in Q. rewrite SO in Q. discriminate. }
      assert (NPush : contains "PUSH" id = false).
      { unfold ids_ok in I1. rewrite forallb_forall in I1. specialize (I1 _ Hid). rewrite SO in I1. simpl in I1. apply negb_true_iff; auto. }
      unfold id_to_asm_bytecode. rewrite NF, NPush. eauto.
    - unfold asm_from_ids in Hc. apply (map_result_each _ _ _ Hc). apply filter_In. split; [apply lowered_keeps; assumption|]. apply negb_true_iff, String.eqb_neq. auto. }
  destruct Hcode as (code0 & Hcode & Hmap).
  set (ef := fst (exec_prog sem (s_instrs s) (e0, w0))) in *.
  set (good := fun x => user_name x -> ef x = fst block x).
  assert (Havoid : forall i l, In i (s_instrs s) -> in_registers R l -> ~ reads (block_fp val) i (map ef (i_inpt i)) l /\ writes (block_fp val) i (map ef (i_inpt i)) l = false).
  { intros i l Hi Hl. cbn [reads writes block_fp]. destruct (Hargs i Hi) as [P|(c & Hcn & Ed & Ea)].
    - split; [exact (push1_no_write i _ l P)|]. apply Bool.not_true_iff_false. intros Q. exact (push1_no_write i _ l P (or_intror Q)).
    - pose proof (spares_final instrs initial HB sem val e0 w0 R Sp c l Hcn Hl) as N. rewrite Ed, Ea.
      destruct (supported_lower c (map val (map (aval sem (fst block)) (c_in c))) l (ssa_supported _ _ HB c Hcn)) as [Q1 Q2]. fold block in N. fold block.
      unfold evm_depends in *. rewrite Q1, Q2. split; [exact N|]. apply Bool.not_true_iff_false. intros Q. apply N. right. exact Q. }
  assert (Hgs : forall x, In x (s_src s) -> good x).
  { intros x Hx U. apply Hval; [exact U|]. right. apply (ssa_initial _ _ HB). rewrite <- E1. exact Hx. }
  assert (Hgo : forall x, In x (outputs (s_instrs s)) -> good x) by (intros x Hx U; apply Hval; auto).
  assert (E0 : map ef (s_src s) = map e0 (s_src s)).
  { apply map_ext_in. intros x Hx. unfold ef. apply (exec_prog_notin sem (s_instrs s) (e0, w0)). auto. }
  destruct (run_lowered sem (block_fp val) s e0 w0 below ids code0 junk load R Wf I2 I3 I1 Hcode Rs D Hids HR Havoid good Hgo regs
    ids [] (s_src s) stf w0 w rs h hf eq_refl eq_refl Run) as (c2 & wf & wf2 & M & Nf & Rn & Of & Hf & Un); auto.
  { exists [], ef. split; [reflexivity|]. cbn. rewrite <- E0. reflexivity. }
  { intros l N. symmetry. apply O. exact N. }
  { intros r x Hr. destruct (Hh r x Hr) as (Q1 & Q2 & Q3 & Q4). split; [exact Q1|].
    assert (G : ef x = e0 x). { unfold ef. rewrite Hval by auto. apply cfg_notin. exact Q3. }
    split; [intros U; apply Hval; auto|]. rewrite Q4. symmetry. exact G. }
  assert (Ec : code = c2).
  { unfold asm_from_ids in Hc. rewrite filter_all in Hc; [congruence|]. intros id Hid. apply negb_true_iff, String.eqb_neq. exact (lowered_no_nop ids rs NN id Hid). }
  subst c2.
  destruct (compiled_block_correct_partial instrs initial split final target s ids code0 junk HB HO HT) with (sem := sem) (val := val) (e0 := e0) (w0 := w0) (below := below) (r0 := ef)
    as (m & out & extra & M1 & M2 & M3 & M4 & M5); auto.
  { rewrite HT' in HF. exact HF. } { rewrite HT' in HU. exact HU. }
  { intros pre id post x _ _. right. reflexivity. }
  destruct Nf as (c & r & Mc & Rc). rewrite Hmap in Mc. injection Mc as <-. rewrite E1 in Rc. pose proof (eq_trans (eq_sym M1) Rc) as Em. injection Em as ->.
  cbn [CheckerSim.mk m_stack m_world] in M2, M5.
  exists (CheckerSim.mk (map ef stf ++ below) wf2 regs), out, extra. split; [rewrite <- E1, <- E0; exact Rn|]. split; [exact M2|]. split; [exact M3|]. split; [exact M4|].
  cbn [CheckerSim.mk m_world]. split; [|split; [|exact Un]].
  - intros l N. rewrite <- M5. symmetry. apply Of. exact N.
  - intros q x Hq U. destruct (Hf q x Hq) as (_ & G & ->). apply G. exact U.
Qed.
Print Assumptions lowered_block_correct_partial.
