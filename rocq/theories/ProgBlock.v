(** One block of a translated program: running its code. *)
From Verif Require Import Base Lexical SymExecModel AsmModel MachineSpec FootprintSpec LexicalProofs CheckerProofs CheckerSim DepsModel GreedyTailModel
  SpecModel SpecSem SpecProofs SpecBuild SpecSound SpecDce SpecDeps BlockSpec BlockProofs BlockProps UtilModel UtilProps EmitModel EmitSpec EmitProps
  RegModel RegsSpec RegsBlock ProgSem ProgSpec.
Open Scope string_scope. Open Scope list_scope.

Lemma upper_not_tag s : upper s <> "tag".
Proof.
  destruct s as [|c s]; [discriminate|]. cbn [upper]. intros [= H _]. destruct c as [[] [] [] [] [] [] [] []]; discriminate H.
Qed.

(** The items of a compiled block transfer no control. *)
Lemma spec_instr_from b i : compiled b -> In i (s_instrs (t_spec b)) ->
  push1 i \/ exists c, In c (p_instrs (t_block b)) /\ i_disasm i = upper (c_op c).
Proof.
  intros C Hi. pose proof (co_spec _ C) as HS. unfold build_spec in HS.
  apply bind_ok in HS as ([[s' pos] unused] & H1 & H). apply bind_ok in H as (deps & H2 & H). injection H as Es.
  assert (HF : forall v, In v (stack_before_split (p_last (t_block b)) (t_final b)) -> layout_name v).
  { pose proof (co_target _ C) as T. apply before_split_stack in T. rewrite T. exact (co_names _ C). }
  destruct (build_sequence_shape _ _ _ _ _ _ _ (co_ssa _ C) HF H1) as (st & extra & S & P & Ep & Ei & K & Tg & A).
  rewrite <- Es in Hi. cbn [s_instrs] in Hi. rewrite Ei in Hi. apply filter_In in Hi as [Hi _].
  destruct (pc_from _ _ P i Hi) as [Q|(k & c & Hk & (Q & _) & _)]; [left; exact Q|right].
  exists c. split; [eapply nth_error_In; eauto|exact Q].
Qed.

Lemma for_each_all {A S} (f : S -> A -> result S) xs : forall s s', for_each f xs s = Ok s' -> forall x, In x xs -> exists s1 s2, f s1 x = Ok s2.
Proof.
  induction xs as [|y xs IH]; intros s s' H x []; cbn [for_each] in H; apply bind_ok in H as (s1 & H1 & H).
  - subst. eauto.
  - eapply IH; eauto.
Qed.

Lemma known_ids b id : compiled b -> In id (t_ids b) -> find_instr id (s_instrs (t_spec b)) <> None \/ is_stack_op id = true.
Proof.
  intros C Hid. pose proof (co_accepted _ C) as A. unfold check_execution_from_ids in A. apply bind_ok in A as (st & R & _).
  unfold run_symbolic in R. destruct (for_each_all _ _ _ _ R id Hid) as (s1 & s2 & E). unfold execute_instr_id in E. unfold is_stack_op.
  destruct (String.eqb id "POP"); [right; reflexivity|]. destruct (contains "SWAP" id); [right; reflexivity|].
  destruct (contains "DUP" id); [right; reflexivity|]. destruct (vget_arg id); [right; reflexivity|]. destruct (vset_arg id); [right; reflexivity|].
  left. apply bind_ok in E as (i & Ei & _). apply of_option_ok in Ei. congruence.
Qed.

Lemma map_result_In {A B} (f : A -> result B) xs : forall ys, map_result f xs = Ok ys -> forall y, In y ys -> exists x, In x xs /\ f x = Ok y.
Proof.
  induction xs as [|x xs IH]; intros ys H y Hy; cbn [map_result] in H; [injection H as <-; destruct Hy|].
  apply bind_ok in H as (z & Hz & H). apply bind_ok in H as (zs & Hzs & H). injection H as <-. destruct Hy as [<-|Hy]; [exists x; simpl; auto|].
  destruct (IH zs Hzs y Hy) as (x' & Hx & E). exists x'. simpl; auto.
Qed.

Lemma asm_of_instr_name i a : asm_of_instr i = Ok a -> a_name a = i_disasm i \/ In (a_name a) ["PUSH"; "PUSH [tag]"].
Proof.
  unfold asm_of_instr. intros H. destruct (String.eqb (i_disasm i) "PUSH0"); [injection H as <-; right; simpl; auto|].
  destruct (is_hex_push (i_disasm i)); [apply bind_ok in H as (v & _ & H); injection H as <-; left; reflexivity|].
  destruct (String.eqb (i_disasm i) "PUSH [TAG]").
  - destruct (i_outpt i); [discriminate|]. apply bind_ok in H as (z & _ & H). injection H as <-. right; simpl; auto.
  - destruct (i_value i); [apply bind_ok in H as (v & _ & H)|]; injection H as <-; left; reflexivity.
Qed.

Lemma find_last_In ui id i : find_last_instr id ui = Some i -> In i ui.
Proof. intros H. apply find_instr_In in H as [H _]. rewrite in_rev. exact H. Qed.
Lemma find_last_some ui id : find_instr id ui <> None -> find_last_instr id ui <> None.
Proof.
  intros H. destruct (find_instr id ui) as [i|] eqn:E; [|destruct (H eq_refl)]. intros N.
  apply find_instr_In in E as [Hi <-]. unfold find_last_instr, find_instr in N.
  pose proof (find_none _ _ N i) as Q. cbv beta in Q. rewrite String.eqb_refl in Q. apply in_rev in Hi. specialize (Q Hi). discriminate.
Qed.

Lemma lowered_In id : forall ids rs, In id (lowered ids rs) -> In id ids \/ (exists r, id = ("PUSH " ++ hex_drop2 r)%string) \/ In id ["MLOAD"; "MSTORE"].
Proof.
  induction ids as [|x ids IH]; intros rs H; [destruct H|]. cbn [lowered] in H.
  destruct (vget_arg x), (vset_arg x), rs; try (destruct H as [<-|H]; [left; left; reflexivity|destruct (IH _ H) as [Q|Q]; [left; right; exact Q|right; exact Q]]);
    (apply in_app_iff in H as [[<-|[<-|[]]]|H]; [right; left; eauto|right; right; simpl; auto|destruct (IH _ H) as [Q|Q]; [left; right; exact Q|right; exact Q]]).
Qed.

Lemma code_no_control b code : compiled b -> asm_from_ids (s_instrs (t_spec b)) (lowered (t_ids b) (t_slots b)) = Ok code ->
  forall a, In a code -> ~ In (a_name a) control_names.
Proof.
  intros C H a Ha. unfold asm_from_ids in H. destruct (map_result_In _ _ _ H a Ha) as (id & Hid & E). clear H.
  apply filter_In in Hid as [Hid _]. unfold id_to_asm_bytecode in E.
  destruct (find_last_instr id (s_instrs (t_spec b))) as [i|] eqn:F.
  - apply find_last_In in F. apply asm_of_instr_name in E as [E|E].
    + rewrite E. destruct (spec_instr_from b i C F) as [(z & o & (_ & [[Q _]|[Q _]]) & _)|(c & Hc & Q)].
      * rewrite Q. simpl. intuition discriminate.
      * rewrite Q. simpl. intuition discriminate.
      * rewrite Q. exact (co_control _ C c Hc).
    + destruct E as [<-|[<-|[]]]; simpl; intuition discriminate.
  - destruct (contains "PUSH" id) eqn:CP.
    + apply bind_ok in E as (v & _ & E). injection E as <-. simpl. intuition discriminate.
    + injection E as <-. cbn [asm_from_op_info a_name]. apply lowered_In in Hid as [Hid|[(r & ->)|Hid]]; [|discriminate CP|].
      * destruct (known_ids b id C Hid) as [Q|Q]; [destruct (find_last_some _ _ Q F)|].
        simpl. intros N. repeat (destruct N as [N|N]; [subst id; discriminate Q|]). destruct N.
      * destruct Hid as [<-|[<-|[]]]; simpl; intuition discriminate.
Qed.

Section Run.
Context {V LV : Type}.
Variable sem : semantics V place LV.
Variable truth : V -> bool.
Variable tag_of : V -> option Z.
Notation estep := (estep sem truth tag_of).
Notation esteps := (esteps sem truth tag_of).

Lemma esteps_app n k code s s' : esteps n code s = Some s' -> esteps (n + k) code s = esteps k code s'.
Proof.
  revert s. induction n as [|n IH]; intros s H; cbn [ProgSem.esteps Nat.add] in *; [injection H as ->; reflexivity|].
  destruct (estep code s) as [s1|]; [|discriminate]. apply IH. exact H.
Qed.

Lemma mrun_esteps c : forall pre post m m', (forall a, In a c -> ~ In (a_name a) control_names) -> mrun sem c m = Some m' ->
  esteps (length c) (pre ++ c ++ post) (At (length pre) m) = Some (At (length pre + length c) m').
Proof.
  induction c as [|a c IH]; intros pre post m m' N H.
  - cbn in *. injection H as ->. rewrite Nat.add_0_r. reflexivity.
  - cbn [length ProgSem.esteps ProgSem.estep mrun] in *. rewrite nth_error_app2, Nat.sub_diag by lia. cbn [nth_error app].
    destruct (mstep sem a m) as [m1|] eqn:E; [|discriminate].
    specialize (N a (or_introl eq_refl)) as Na. unfold control_names, halting in Na. simpl in Na.
    replace (mem (a_name a) ["tag"; "JUMPDEST"]) with false by (symmetry; apply mem_false; simpl; tauto).
    destruct (String.eqb_spec (a_name a) "JUMP") as [Q|_]; [exfalso; intuition congruence|].
    destruct (String.eqb_spec (a_name a) "JUMPI") as [Q|_]; [exfalso; intuition congruence|].
    replace (mem (a_name a) halting) with false by (symmetry; apply mem_false; simpl; tauto).
    cbn [option_map]. specialize (IH (pre ++ [a]) post m1 m' (fun x Hx => N x (or_intror Hx)) H).
    rewrite <- app_assoc, app_length in IH. cbn [app length] in IH.
    replace (length pre + S (length c)) with (length pre + 1 + length c) by lia.
    replace (S (length pre)) with (length pre + 1) by lia. exact IH.
Qed.

(** Environments that agree except on unread names, and states that agree in every place. *)
Definition same_but (dummy : list string) (e e' : string -> V) : Prop := forall x, ~ In x dummy -> e x = e' x.
Definition same_world (w w' : place -> LV) : Prop := forall l, w l = w' l.

Lemma aval_same dummy e e' v : same_but dummy e e' -> ~ In v dummy -> aval sem e v = aval sem e' v.
Proof. intros H N. unfold aval. destruct (startswith "0x" v); [destruct (py_int16 v); auto|]; apply H, N. Qed.
Lemma bind_same dummy xs : forall vs e e', same_but dummy e e' -> same_but dummy (bind_vars e xs vs) (bind_vars e' xs vs).
Proof.
  induction xs as [|x xs IH]; intros vs e e' H y N; destruct vs as [|v vs]; cbn [bind_vars]; auto.
  destruct (String.eqb y x); [reflexivity|]. apply IH; auto.
Qed.

Lemma exec_cfg_same val dummy instrs : evm_like sem val instrs -> (forall i x, In i instrs -> In x dummy -> ~ In x (c_in i)) ->
  forall l e e' w w', incl l instrs -> same_but dummy e e' -> same_world w w' ->
  same_but dummy (fst (exec_cfg sem l (e, w))) (fst (exec_cfg sem l (e', w')))
  /\ same_world (snd (exec_cfg sem l (e, w))) (snd (exec_cfg sem l (e', w'))).
Proof.
  intros EV U. { induction l as [|i l IH]; intros e e' w w' I He Hw; [split; assumption|]. unfold exec_cfg. cbn [fold_left exec_cins].
    assert (Hi : In i instrs) by (apply I; left; reflexivity).
    assert (Ea : map (aval sem e') (c_in i) = map (aval sem e) (c_in i)).
    { apply map_ext_in. intros x Hx. symmetry. apply aval_same with dummy; auto. intros D. exact (U i x Hi D Hx). }
    rewrite Ea. set (args := map (aval sem e) (c_in i)).
    pose proof (ev_outs _ _ _ EV i args w w' Hi (fun l0 _ => Hw l0)) as Eo.
    assert (Ew : same_world (snd (cfg_denote sem i args w)) (snd (cfg_denote sem i args w'))).
    { intros l0. destruct (evm_writes (c_op i) (map val args) l0) eqn:W.
      - apply (ev_writes _ _ _ EV i args w w' Hi (fun l1 _ => Hw l1) l0 W).
      - rewrite !(ev_frame _ _ _ EV i args _ l0 Hi W). apply Hw. }
    destruct (cfg_denote sem i args w) as [o w1]. destruct (cfg_denote sem i args w') as [o' w1']. cbn [fst snd] in Eo, Ew. subst o'.
    apply IH; [intros x Hx; apply I; right; exact Hx|apply bind_same; exact He|exact Ew]. }
Qed.

(** The values of a layout. *)
Definition holds (dummy : list string) (e : string -> V) (v : string) (x : V) : Prop := v <> "bottom" -> ~ In v dummy -> x = aval sem e v.

Lemma bind_vars_In (e : string -> V) xs : forall vs x v k, NoDup xs -> nth_error xs k = Some x -> nth_error vs k = Some v -> bind_vars e xs vs x = v.
Proof.
  induction xs as [|y xs IH]; intros vs x v k ND Hx Hv; [destruct k; discriminate|]. inversion ND; subst.
  destruct vs as [|u vs]; [destruct k; discriminate|]. cbn [bind_vars]. destruct k as [|k]; cbn in Hx, Hv.
  - injection Hx as ->. injection Hv as ->. rewrite String.eqb_refl. reflexivity.
  - destruct (String.eqb_spec x y) as [->|_]; [apply nth_error_In in Hx; contradiction|]. eapply IH; eauto.
Qed.
Lemma Forall2_nth {A B} (R : A -> B -> Prop) l l' : Forall2 R l l' -> forall n a b, nth_error l n = Some a -> nth_error l' n = Some b -> R a b.
Proof. induction 1; intros [|n] a b Ha Hb; cbn in *; try discriminate; [congruence|eauto]. Qed.

Lemma Forall2_len {A B} (R : A -> B -> Prop) l l' : Forall2 R l l' -> length l = length l'.
Proof. induction 1; simpl; congruence. Qed.

Lemma user_aval e v : user_name v -> aval sem e v = e v.
Proof. intros [H _]. unfold aval. rewrite H. reflexivity. Qed.

(** The states agree outside the registers. *)
Definition outside (R : list Z) (w w' : place -> LV) : Prop := forall l, ~ in_registers R l -> w l = w' l.

Lemma run_block val dummy b code load R e w w' vals below regs : compiled b -> unread dummy b -> evm_like sem val (p_instrs (t_block b)) ->
  asm_from_ids (s_instrs (t_spec b)) (lowered (t_ids b) (t_slots b)) = Ok code ->
  register_ops sem load R -> incl (t_slots b) R -> incl (map fst (t_held b)) R -> block_spares sem val R (p_instrs (t_block b)) e w ->
  Forall2 (holds dummy e) (t_initial b) vals -> outside R w w' -> (forall r x, In (r, x) (t_held b) -> load r w' = e x) ->
  let r := exec_cfg sem (p_instrs (t_block b)) (e, w) in
  exists m out extra, mrun sem code {| m_stack := vals ++ below; m_world := w'; m_regs := regs |} = Some m
    /\ m_stack m = out ++ extra ++ below /\ (t_junk b = false -> extra = [])
    /\ Forall2 (holds dummy (fst r)) (t_target b) out /\ outside R (snd r) (m_world m)
    /\ (forall q x, In (q, x) (held_after b) -> user_name x -> ~ In x dummy -> load q (m_world m) = fst r x)
    /\ (forall q, In q R -> ~ In q (t_slots b) -> load q (m_world m) = load q w').
Proof.
  intros C U EV Ec HR I1 I2 Sp H Hw Hh r.
  assert (UN : forall x, In x (t_initial b) -> user_name x) by (intros x Hx; apply (ssa_initial _ _ (co_ssa _ C) x Hx)).
  pose proof (Forall2_len _ _ _ H) as L.
  set (e0 := bind_vars e (t_initial b) vals).
  assert (E0 : map e0 (t_initial b) = vals) by (apply bind_vars_map; [exact (co_nodup _ C)|symmetry; exact L]).
  assert (S0 : same_but dummy e e0).
  { intros x N. destruct (in_dec String.string_dec x (t_initial b)) as [I|I].
    - apply In_nth_error in I as (k & Hk). destruct (nth_error vals k) as [v|] eqn:Hv.
      + unfold e0. rewrite (bind_vars_In e _ vals x v k (co_nodup _ C) Hk Hv). symmetry.
        assert (Ux : user_name x) by (apply UN; eapply nth_error_In; eauto).
        rewrite (Forall2_nth _ _ _ H k x v Hk Hv (proj1 (proj2 Ux)) N). apply user_aval. exact Ux.
      + apply nth_error_None in Hv. assert (k < length (t_initial b)) by (apply nth_error_Some; congruence). lia.
    - unfold e0. rewrite bind_vars_notin by exact I. reflexivity. }
  assert (UI : forall i x, In i (p_instrs (t_block b)) -> In x dummy -> ~ In x (c_in i)) by (intros i x Hi D; exact (proj1 (U x D) i Hi)).
  destruct (exec_cfg_same val dummy (p_instrs (t_block b)) EV UI (p_instrs (t_block b)) e e0 w w) as [Se Sw]; auto; [apply incl_refl|intros l; reflexivity|].
  destruct (track (t_ids b) (t_slots b) (t_held b)) as [hf|] eqn:Tr; [|destruct (co_registers _ C Tr)].
  assert (Ha : held_after b = hf) by (unfold held_after; rewrite Tr; reflexivity).
  destruct (lowered_block_correct_partial _ _ _ _ _ _ _ _ _ _ _ _ (co_ssa _ C) (co_orderable _ C) (co_target _ C) (co_names _ C) (co_used _ C)
    (co_spec _ C) (co_ids _ C) (co_accepted _ C) (co_depth _ C) Tr Ec V LV sem val EV load R HR I1 e0 w w' below regs) as (m & out & extra & M1 & M2 & M3 & M4 & M5 & M6 & M7).
  { intros pre i post E l Hl. specialize (Sp pre i post E l Hl). assert (Hi : In i (p_instrs (t_block b))) by (rewrite E; apply in_app_iff; simpl; auto).
    assert (Q : map (aval sem (fst (exec_cfg sem pre (e, w)))) (c_in i) = map (aval sem (fst (exec_cfg sem pre (e0, w)))) (c_in i)); [|exact (eq_ind _ (fun q => ~ evm_depends (c_op i) (map val q) l) Sp _ Q)].
    apply map_ext_in. intros x Hx. apply aval_same with dummy; [|intros D; exact (UI i x Hi D Hx)].
    apply (exec_cfg_same val dummy (p_instrs (t_block b)) EV UI pre e e0 w w); [|exact S0|intros q; reflexivity]. rewrite E. apply incl_appl, incl_refl. }
  { intros l N. symmetry. apply Hw. exact N. }
  { intros q x Hq. destruct (co_held _ C q x Hq) as [Ux Nx]. split; [apply I2; apply in_map_iff; exists (q, x); auto|]. split; [exact Ux|]. split; [exact Nx|].
    rewrite (Hh q x Hq). apply S0. intros D. exact (proj2 (proj2 (proj2 (U x D))) q Hq). }
  rewrite E0 in M1. exists m, out, extra. split; [exact M1|]. split; [exact M2|]. split; [exact M3|]. split; [|split; [|split]].
  - unfold r. revert M4. apply Forall2_impl'. intros v x Hx B N. rewrite (Hx B). apply aval_same with dummy; [|exact N].
    intros y Ny. symmetry. apply Se. exact Ny.
  - intros l N. rewrite M5 by exact N. apply Sw.
  - intros q x Hq Ux Nx. rewrite Ha in Hq. rewrite (M6 q x Hq Ux). symmetry. apply Se. exact Nx.
  - exact M7.
Qed.
End Run.
