(** The dependencies of a generated specification order its operations. *)
From Coq Require Import Relations.
From Verif Require Import Base Lexical SymExecModel AsmModel MachineSpec FootprintSpec LexicalProofs
  CheckerProofs DepsModel DepsSpec DepsProofs DepsProps SpecModel SpecSem SpecProofs SpecBuild SpecSound SpecDce SpecDeps
  BlockSpec.
Open Scope string_scope. Open Scope list_scope.

(** The construction of the specification, taken apart. *)
Lemma build_sequence_shape instrs initial split final s pos unused :
  ssa_block instrs initial ->
  (forall v, In v (stack_before_split split final) -> layout_name v) ->
  build_spec_for_sequence instrs split initial final = Ok (s, pos, unused) ->
  exists st extra, sinv instrs [] extra st /\ placed instrs st /\ pos = b_pos st
  /\ s_instrs s = filter (fun i => negb (mem (i_id i) unused)) (b_ui st)
  /\ kept_spec (b_ui st) (s_tgt s) (fun i => negb (mem (i_id i) unused))
  /\ (forall v, In v (stack_before_split split final) -> user_name v -> In v (s_tgt s))
  /\ (forall V Loc LV (sem : semantics V Loc LV) e0 w0, agree sem e0 w0 instrs (b_ui st)).
Proof.
  intros B Hf H. unfold build_spec_for_sequence in H. set (fin := stack_before_split split final) in *.
  apply bind_ok in H as (st & H1 & H). apply bind_ok in H as (st2 & H2 & H).
  apply bind_ok in H as (un & H3 & H). injection H as <- <- <-. cbn [s_src s_tgt s_instrs].
  destruct (build_loop_spec instrs initial B instrs [] init_bstate 0 st eq_refl (sinv_init _ _) H1) as (S1 & O1 & A1).
  { intros i []. }
  pose proof (build_loop_placed instrs initial B instrs [] init_bstate st eq_refl (sinv_init _ _) H1 placed_init) as P1.
  destruct (const_entries_spec fin []) as (C1 & C2 & _ & C4 & C5); [constructor|intros p []|].
  cbv zeta in *.
  assert (L0 : lit_ok "0x00") by (split; [reflexivity|exists 0%Z; split; [reflexivity|lia]]).
  assert (Hps : forall p, In p (const_entries [] fin) -> special (fst p) /\ lit_ok (snd p) /\ ~ In (fst p) []).
  { intros p Hp. destruct (C5 p Hp) as [[]|[Q1 Q2]]. split; [exact Q2|]. split; [|intros []].
    rewrite (C2 p Hp). unfold entry_of. cbn [fst snd]. destruct (String.eqb_spec (fst p) "bottom") as [E|N]; [exact L0|].
    destruct (Hf _ Q1) as [U|[L|U]]; [|exact L|contradiction].
    destruct Q2 as [Q2|Q2]; [contradiction|]. destruct U as [U _]. congruence. }
  destruct (add_entries_spec instrs (const_entries [] fin) [] st st2 S1 C1 Hps H2) as (extra & S2 & E2 & _ & X2 & O2 & A2).
  pose proof (add_entries_placed instrs (const_entries [] fin) [] st st2 S1 C1 Hps H2 P1) as P2.
  exists st2, extra. split; [exact S2|]. split; [exact P2|]. split; [reflexivity|]. split; [|split; [|split]].
  - rewrite <- (map_id (filter _ _)) at 2. apply map_ext_in. intros i Hi. apply filter_In in Hi as [Hi _].
    apply replace_aliasing_id. intros x y Q. destruct (si_alias _ _ _ _ S2 x y Q) as [E|[N1 N2]]; [left; exact E|].
    right. split; [apply N2; exact Hi|]. intros Q'. apply N1. unfold outputs. apply in_flat_map. eauto.
  - exact (detect_kept _ _ _ (si_idnd _ _ _ _ S2) (si_nodup _ _ _ _ S2) H3).
  - intros v Hv U. apply in_map_iff. exists v. split; [|exact Hv]. unfold dict_get_default.
    destruct (dict_get v (b_alias st2)) as [y|] eqn:E; [|reflexivity].
    apply dict_get_In in E. destruct (si_alias_name _ _ _ _ S2 v y E) as [Q|Q].
    + exfalso. eapply is_fresh_not_user; eauto.
    + exfalso. apply (proj1 (si_extra _ _ _ _ S2 v Q)). exact U.
  - intros V Loc LV sem e0 w0. apply A2. apply A1. split; [reflexivity|auto].
Qed.

(** Names. *)
Lemma supported_lower c args l : supported c ->
  evm_reads (lower (upper (c_op c))) args l = evm_reads (c_op c) args l
  /\ evm_writes (lower (upper (c_op c))) args l = evm_writes (c_op c) args l.
Proof.
  intros [v x E _ _ _|k z x E _ _ _ _ _|t z E _ _ _ _|k ls E _ _ _|_ _ _ _ E _]; [| | | |rewrite E; auto].
  - rewrite E. destruct l; split; reflexivity.
  - rewrite E. destruct l; split; reflexivity.
  - rewrite E. destruct l; split; reflexivity.
  - simpl in E. repeat (destruct E as [E|E]; [rewrite <- E; destruct l; split; reflexivity|]). destruct E.
Qed.

Definition touching : list string :=
  ["mload"; "mstore"; "mstore8"; "keccak256"; "codecopy"; "calldatacopy"; "returndatacopy"; "mcopy"; "extcodecopy";
   "assignimmutable"; "sload"; "sstore"; "tload"; "tstore"; "balance"; "selfbalance"; "extcodesize"; "extcodehash";
   "returndatasize"] ++ call_names ++ create_names ++ log_names.
Definition writing : list string :=
  ["mstore"; "mstore8"; "codecopy"; "calldatacopy"; "returndatacopy"; "mcopy"; "extcodecopy";
   "assignimmutable"; "sstore"; "tstore"] ++ call_names ++ create_names ++ log_names.

Lemma existsb_nil_false {A} (f : A -> bool) l : existsb f l = true -> l <> [].
Proof. destruct l; simpl; congruence. Qed.

Lemma mem_reads_names op : mem_reads op <> [] -> In op touching.
Proof.
  unfold mem_reads. intros H. apply mem_In.
  repeat match type of H with context [if mem op ?L then _ else _] =>
    destruct (mem op L) eqn:?; [match goal with E : mem op L = true |- _ => apply mem_In in E; simpl in E;
      repeat (destruct E as [<-|E]; [reflexivity|]); destruct E end|] end. congruence.
Qed.
Lemma mem_writes_names op : mem_writes op <> [] -> In op writing.
Proof.
  unfold mem_writes. intros H. apply mem_In.
  repeat match type of H with context [if mem op ?L then _ else _] =>
    destruct (mem op L) eqn:?; [match goal with E : mem op L = true |- _ => apply mem_In in E; simpl in E;
      repeat (destruct E as [<-|E]; [reflexivity|]); destruct E end|] end. congruence.
Qed.

Ltac names H := apply mem_In in H; simpl in H; apply mem_In;
  repeat (destruct H as [<-|H]; [reflexivity|]); destruct H.

Lemma reads_names op args l : evm_reads op args l = true -> In op touching.
Proof.
  destruct l as [b|s|s|]; cbn [evm_reads evm_writes].
  - intros H. apply mem_reads_names. eapply existsb_nil_false; eauto.
  - intros H. apply orb_true_iff in H as [H|H]; [apply andb_true_iff in H as [H _]; apply String.eqb_eq in H; subst; simpl; auto 20|names H].
  - intros H. apply orb_true_iff in H as [H|H]; [apply andb_true_iff in H as [H _]; apply String.eqb_eq in H; subst; simpl; auto 20|names H].
  - intros H. names H.
Qed.
Lemma writes_names op args l : evm_writes op args l = true -> In op writing.
Proof.
  destruct l as [b|s|s|]; cbn [evm_reads evm_writes].
  - intros H. apply orb_true_iff in H as [H|H]; [apply String.eqb_eq in H; subst; simpl; auto 20|].
    apply mem_writes_names. eapply existsb_nil_false; eauto.
  - intros H. apply orb_true_iff in H as [H|H]; [apply andb_true_iff in H as [H _]; apply String.eqb_eq in H; subst; simpl; auto 20|names H].
  - intros H. apply orb_true_iff in H as [H|H]; [apply andb_true_iff in H as [H _]; apply String.eqb_eq in H; subst; simpl; auto 20|names H].
  - intros H. names H.
Qed.

Lemma writing_flagged op : In op writing -> op <> "callcode" ->
  mem (lower (upper op)) memory_storage_instructions = true /\ contains "GAS" (upper op) = false
  /\ startswith "PUSH" (upper op) = false /\ op <> "LiteralAssignment".
Proof.
  intros H N. simpl in H.
  repeat (destruct H as [<-|H]; [first [contradiction|split; [reflexivity|]; split; [reflexivity|]; split; [reflexivity|discriminate]]|]).
  destruct H.
Qed.

(* ---------------------------------------------------------------- *)
(** The ends of a dependency are accesses. *)
Lemma collect_In {A} (f : list cins -> nat -> cins -> result (list A)) l : forall pre i acc x,
  collect f pre i l = Ok acc -> In x acc -> exists k ins pre' xs, nth_error l k = Some ins
    /\ f pre' (i + k) ins = Ok xs /\ In x xs.
Proof.
  induction l as [|c l IH]; intros pre i acc x H Hx; cbn [collect] in H.
  - injection H as <-. destruct Hx.
  - apply bind_ok in H as (xs & H1 & H). apply bind_ok in H as (ys & H2 & H). injection H as <-.
    apply in_app_iff in Hx as [Hx|Hx].
    + exists 0, c, pre, xs. rewrite Nat.add_0_r. auto.
    + destruct (IH _ _ _ _ H2 Hx) as (k & ins & pre' & zs & Q1 & Q2 & Q3). exists (S k), ins, pre', zs.
      rewrite Nat.add_succ_r. auto.
Qed.

Definition accessing : list string :=
  ["mload"; "mstore"; "mstore8"; "keccak256"; "codecopy"; "calldatacopy"; "returndatacopy"; "mcopy"; "extcodecopy";
   "assignimmutable"; "sload"; "sstore"; "tload"; "tstore"] ++ call_names ++ create_names ++ log_names.

Lemma slot_entry_access loads pre k ins xs x : incl loads accessing -> slot_entry loads pre k ins = Ok xs -> In x xs ->
  fst (fst x) = k /\ In (c_op ins) accessing.
Proof.
  intros Hl H Hx. unfold slot_entry in H. destruct (mem (c_op ins) loads) eqn:M.
  - apply bind_ok in H as (v & _ & H). apply bind_ok in H as (e & _ & H). injection H as <-.
    destruct Hx as [<-|[]]. split; [reflexivity|]. apply Hl. apply mem_In. exact M.
  - destruct (mem (c_op ins) call_ops) eqn:C; injection H as <-; [|destruct Hx].
    destruct Hx as [<-|[]]. split; [reflexivity|]. names C.
Qed.

Lemma mem_entry_access pre k ins xs x : mem_entry pre k ins = Ok xs -> In x xs ->
  fst (fst x) = k /\ In (c_op ins) accessing.
Proof.
  intros H Hx. unfold mem_entry in H. destruct (mem (c_op ins) _) eqn:M in H.
  - apply bind_ok in H as (v & _ & H). apply bind_ok in H as (e & _ & H). injection H as <-.
    destruct Hx as [<-|[]]. split; [reflexivity|]. names M.
  - clear M. destruct (String.eqb_spec (c_op ins) "assignimmutable") as [E|_].
    + injection H as <-. destruct Hx as [<-|[]]. split; [reflexivity|]. rewrite E. simpl; auto 20.
    + assert (K : get_interval (c_op ins) <> None -> In (c_op ins) accessing).
      { unfold get_interval. intros Q. 
        repeat match type of Q with context [if mem ?o ?L then _ else _] =>
          destruct (mem o L) eqn:?; [match goal with E : mem o L = true |- _ => names E end|] end. congruence. }
      destruct (get_interval (c_op ins)) as [[r|[r1 r2]]|] eqn:G; [| |injection H as <-; destruct Hx].
      * apply bind_ok in H as (v & _ & H). injection H as <-. destruct Hx as [<-|[]]. split; [reflexivity|apply K; discriminate].
      * apply bind_ok in H as (v & _ & H). apply bind_ok in H as (e & _ & H). injection H as <-.
        destruct Hx as [<-|[<-|[]]]; (split; [reflexivity|apply K; discriminate]).
Qed.

Definition access_at (instrs : list cins) (k : nat) : Prop :=
  exists c, nth_error instrs k = Some c /\ In (c_op c) accessing.

Lemma slot_deps_access loads instrs deps : incl loads accessing -> slot_dependences loads instrs = Ok deps ->
  forall u v, In (u, v) deps -> access_at instrs u /\ access_at instrs v.
Proof.
  intros Hl H u v Hin. unfold slot_dependences in H. apply bind_ok in H as (acc & Hacc & H). injection H as <-.
  apply in_map_iff in Hin as ([x y] & E & Hin). injection E as <- <-. apply filter_In in Hin as [Hin _].
  apply in_ordered_pairs in Hin as [Hx Hy].
  split; [destruct (collect_In _ _ _ _ _ _ Hacc Hx) as (k & ins & pre & xs & Q1 & Q2 & Q3)
         |destruct (collect_In _ _ _ _ _ _ Hacc Hy) as (k & ins & pre & xs & Q1 & Q2 & Q3)];
    destruct (slot_entry_access _ _ _ _ _ _ Hl Q2 Q3) as [E A]; cbn [fst snd] in *; rewrite E; exists ins; auto.
Qed.

Lemma memory_deps_access instrs deps : compute_memory_dependences instrs = Ok deps ->
  forall u v, In (u, v) deps -> access_at instrs u /\ access_at instrs v.
Proof.
  intros H u v Hin. unfold compute_memory_dependences in H. apply bind_ok in H as (acc & Hacc & H). injection H as <-.
  apply in_map_iff in Hin as ([x y] & E & Hin). injection E as <- <-. apply filter_In in Hin as [Hin _].
  apply in_ordered_pairs in Hin as [Hx Hy].
  split; [destruct (collect_In _ _ _ _ _ _ Hacc Hx) as (k & ins & pre & xs & Q1 & Q2 & Q3)
         |destruct (collect_In _ _ _ _ _ _ Hacc Hy) as (k & ins & pre & xs & Q1 & Q2 & Q3)];
    destruct (mem_entry_access _ _ _ _ _ Q2 Q3) as [E A]; cbn [fst snd] in *; rewrite E; exists ins; auto.
Qed.

Lemma replace_pos_In pos deps deps' : replace_pos_instrsid pos deps = Ok deps' -> forall a b, In (a, b) deps ->
  exists ia ib, pos_id pos a = Some ia /\ pos_id pos b = Some ib /\ In (ia, ib) deps'.
Proof.
  unfold replace_pos_instrsid. revert deps'. induction deps as [|e deps IH]; intros deps' H a b Hin; [destruct Hin|].
  cbn [map_result] in H. apply bind_ok in H as (x & H1 & H). apply bind_ok in H as (xs & H2 & H). injection H as <-.
  destruct Hin as [->|Hin].
  - cbn [fst snd] in H1. destruct (pos_id pos a) as [ia|]; [|discriminate]. destruct (pos_id pos b) as [ib|]; [|discriminate].
    injection H1 as <-. exists ia, ib. simpl; auto.
  - destruct (IH _ H2 a b Hin) as (ia & ib & Q1 & Q2 & Q3). exists ia, ib. simpl; auto.
Qed.

(** A path between kept accesses survives the change of names and the removal
    of the unused operations. *)
Lemma path_kept pos unused deps deps' : replace_pos_instrsid pos (simplify_dependences deps) = Ok deps' ->
  (forall u v, In (u, v) deps -> u < v) ->
  (forall u v id, In (u, v) deps -> (pos_id pos u = Some id \/ pos_id pos v = Some id) -> mem id unused = false) ->
  forall u v, In (u, v) deps -> exists a b, pos_id pos u = Some a /\ pos_id pos v = Some b
    /\ clos_trans string (fun x y => In (x, y) (delete_unused unused deps')) a b.
Proof.
  intros H F K.
  assert (G : forall u v, clos_trans nat (fun x y => In (x, y) (simplify_dependences deps)) u v ->
     exists a b, pos_id pos u = Some a /\ pos_id pos v = Some b
     /\ clos_trans string (fun x y => In (x, y) (delete_unused unused deps')) a b).
  { intros u v P. induction P as [u v P|u v w P1 (a & b & Q1 & Q2 & Q3) P2 (b' & c & R1 & R2 & R3)].
    - destruct (replace_pos_In _ _ _ H u v P) as (a & b & Q1 & Q2 & Q3). exists a, b. split; [exact Q1|]. split; [exact Q2|].
      apply t_step. unfold delete_unused. apply filter_In. split; [exact Q3|]. cbn [fst snd].
      assert (D : In (u, v) deps) by (eapply (proj1 (proj2 (reduction_preserves_order deps F))); eauto).
      rewrite (K u v a D (or_introl Q1)), (K u v b D (or_intror Q2)). reflexivity.
    - exists a, c. split; [exact Q1|]. split; [exact R2|]. assert (b' = b) by congruence. subst b'. eapply t_trans; eauto. }
  intros u v Hin. apply G. apply (proj1 (reduction_preserves_order deps F)). apply t_step. exact Hin.
Qed.

(* ---------------------------------------------------------------- *)
Lemma accessing_cases op : In op accessing -> op <> "callcode" ->
  startswith "PUSH" (upper op) = false /\ op <> "LiteralAssignment"
  /\ (mem (lower (upper op)) memory_storage_instructions = true \/ In op load_names).
Proof.
  intros H N. simpl in H.
  repeat (destruct H as [<-|H]; [first [contradiction|split; [reflexivity|]; split; [discriminate|];
    first [left; reflexivity|right; simpl; auto 10]]|]).
  destruct H.
Qed.

(** The footprint the places give to the operations of a specification. *)
Definition block_fp {V} (val : V -> Z) : footprint V place :=
  {| reads := fun i args l => evm_depends (lower (i_disasm i)) (map val args) l;
     writes := fun i args l => evm_writes (lower (i_disasm i)) (map val args) l |}.

Lemma push1_no_write i args l : push1 i -> evm_depends (lower (i_disasm i)) args l -> False.
Proof.
  intros (z & o & (_ & [[E _]|[E _]]) & _) H; rewrite E in H; destruct l; destruct H as [H|H]; discriminate.
Qed.

Lemma pushy_no_user c x : supported c -> pushy c -> In x (c_in c) -> user_name x -> False.
Proof.
  intros S P Hx U. destruct U as [U _].
  destruct S as [v y E1 E2 _ E3|l z y E1 E2 _ _ _ _|t z E1 E2 _ _ _|l ls E1 _ E2 _|E1 E2 E3 E4 E5 E6];
    try (rewrite E2 in Hx; destruct Hx as [Hx|[]]; congruence); try (rewrite E2 in Hx; destruct Hx).
  destruct P as [P|P]; [congruence|]. rewrite P in E1. vm_compute in E1. discriminate.
Qed.

Lemma needed_kept instrs initial target st extra (tgt : list string) keep :
  ssa_block instrs initial -> (forall i, In i instrs -> ~ In (c_op i) ("callcode" :: create_names)) ->
  sinv instrs [] extra st -> placed instrs st -> kept_spec (b_ui st) tgt keep ->
  (forall v, In v target -> user_name v -> In v tgt) ->
  forall x, needed instrs target x -> user_name x -> forall j, In j (b_ui st) -> In x (i_outpt j) -> keep j = true.
Proof.
  intros B O S P K T.
  assert (Arg : forall c x j, In c instrs -> In x (c_in c) -> user_name x -> In j (b_ui st) -> In x (i_outpt j) ->
    exists i, In i (b_ui st) /\ op_like i c /\ (keep i = true -> keep j = true)).
  { intros c x j Hc Hx U Hj Xj. apply In_nth_error in Hc as (k & Hk).
    destruct (placed_present instrs st k c P (si_idnd _ _ _ _ S) Hk) as (i & Hi & L & F & _).
    - intros Q. eapply pushy_no_user; eauto. eapply ssa_supported; eauto. eapply nth_error_In; eauto.
    - exists i. split; [exact Hi|]. split; [exact L|]. intros Ki. apply (ks_closed _ _ _ K i j x Hi Hj Ki); [|exact Xj].
      clear -F Hx U. induction F as [|v o vs os V F IH]; [destruct Hx|]. destruct Hx as [->|Hx]; [|right; auto].
      left. destruct V as [[_ ->]|[V _]]; [reflexivity|]. destruct U as [U _]. congruence. }
  intros x N. induction N as [x Hx|c x args l Hc Hx W|c x y Hc Hx Hy N IH]; intros U j Hj Xj.
  - apply (ks_tgt _ _ _ K j x Hj Xj). auto.
  - destruct (Arg c x j Hc Hx U Hj Xj) as (i & Hi & L & Ki). apply Ki. apply (ks_storage _ _ _ K i Hi).
    destruct L as (_ & _ & L & _). rewrite L. apply writing_flagged; [eapply writes_names; eauto|].
    intros Q. apply (O c Hc). rewrite Q. simpl. auto.
  - destruct (Arg c x j Hc Hx U Hj Xj) as (i & Hi & L & Ki). apply Ki. apply IH; auto.
    + eapply ssa_out_names; eauto.
    + destruct L as (_ & L & _). rewrite L. exact Hy.
Qed.

Section Block.
Variables (instrs : list cins) (initial : list string) (split : option cins) (final : list string) (s : sfs).
Hypothesis HB : ssa_block instrs initial.
Hypothesis HO : orderable instrs.
Hypothesis HF : forall v, In v (stack_before_split split final) -> layout_name v.
Hypothesis HS : build_spec instrs split initial final = Ok s.
Hypothesis HU : loads_used instrs (stack_before_split split final).
Context {V LV : Type}.
Variable sem : semantics V place LV.
Variable val : V -> Z.
Hypothesis HE : evm_like sem val instrs.
Variables (e0 : string -> V) (w0 : place -> LV).

Lemma block_marked : effects_marked sem instrs.
Proof.
  intros c Hc M args w. apply (ev_pure _ _ _ HE c args w Hc). intros l.
  apply Bool.not_true_iff_false. intros W. apply writes_names in W.
  assert (N : c_op c <> "callcode") by (intros Q; apply (or_create _ HO c Hc); rewrite Q; simpl; auto).
  destruct (writing_flagged _ W N) as (Q & _). congruence.
Qed.

Lemma block_respects_op i c k : nth_error instrs k = Some c -> op_like i c -> length (i_inpt i) = length (c_in c) ->
  respects sem (block_fp val) i.
Proof.
  intros Hk (L1 & L2 & L3 & L4 & L5) Len. pose proof (nth_error_In _ _ Hk) as Hc.
  assert (Sup : supported c) by (apply (ssa_supported _ _ HB); exact Hc).
  assert (R : forall args l, evm_depends (lower (i_disasm i)) args l <-> evm_depends (c_op c) args l).
  { intros args l. unfold evm_depends. rewrite L1. destruct (supported_lower c args l Sup) as [-> ->]. tauto. }
  assert (W : forall args l, evm_writes (lower (i_disasm i)) args l = evm_writes (c_op c) args l).
  { intros args l. rewrite L1. apply (supported_lower c args l Sup). }
  constructor; cbn [reads writes block_fp].
  - intros args w1 w2 H. rewrite !L4. apply (ev_outs _ _ _ HE); auto. intros l Hl. apply H. apply R. exact Hl.
  - intros args w1 w2 H l Hl. rewrite !L4. apply (ev_writes _ _ _ HE); auto.
    + intros l' Hl'. apply H. apply R. exact Hl'.
    + rewrite <- W. exact Hl.
  - intros args w l Hl. rewrite L4. apply (ev_frame _ _ _ HE); auto. rewrite <- W. exact Hl.
  - intros a b w Hcm. rewrite !L4. apply (ev_comm _ _ _ HE); auto. rewrite L5 in Hcm.
    destruct Sup as [v x E _ _ _|q z x E _ _ _ _ _|t z E _ _ _ _|q ls E _ _ _|_ _ _ _ E _].
    + rewrite E in Hcm. discriminate.
    + rewrite E in Hcm. discriminate.
    + rewrite E in Hcm. discriminate.
    + simpl in E. repeat (destruct E as [E|E]; [rewrite <- E in Hcm; discriminate|]). destruct E.
    + rewrite <- E. unfold is_commutative in Hcm. apply mem_In in Hcm. simpl in Hcm.
      repeat (destruct Hcm as [Q|Hcm]; [rewrite <- Q; simpl; auto 10|]). destruct Hcm.
  - intros args w H. rewrite L4, L2. apply (ev_nout _ _ _ HE); congruence.
  - rewrite L1, Len. apply (ev_nin _ _ _ HE). exact Hc.
  - intros args l Hl. rewrite W in Hl. apply writes_names in Hl.
    assert (N : c_op c <> "callcode") by (intros Q; apply (or_create _ HO c Hc); rewrite Q; simpl; auto).
    destruct (writing_flagged _ Hl N) as (Q1 & Q2 & _). rewrite L3, L1. auto.
Qed.

Lemma block_respects_push i : push1 i -> respects sem (block_fp val) i.
Proof.
  intros P. pose proof P as (z & o & Hp & Ho).
  constructor; cbn [reads writes block_fp].
  - intros. rewrite !(is_push_denote sem i z _ _ Hp). reflexivity.
  - intros args w1 w2 H l Hl. exfalso. eapply push1_no_write; [exact P|right; exact Hl].
  - intros. rewrite !(is_push_denote sem i z _ _ Hp). reflexivity.
  - intros. rewrite !(is_push_denote sem i z _ _ Hp). reflexivity.
  - intros. rewrite !(is_push_denote sem i z _ _ Hp), Ho. reflexivity.
  - destruct Hp as [-> [[-> _]|[-> _]]]; apply (ev_push _ _ _ HE); simpl; auto.
  - intros args l Hl. exfalso. eapply push1_no_write; [exact P|right; exact Hl].
Qed.

(** Values at the end of the block, as numbers. *)
Let final_env := fst (exec_cfg sem instrs (e0, w0)).
Let ez : string -> Z := fun x => val (final_env x).

Lemma arg_value c v z : In c instrs -> In v (c_in c) -> lit_ok v \/ user_name v ->
  val (aval sem final_env v) = z -> arg_val ez v = Some z.
Proof.
  intros Hc Hv HL E. unfold arg_val, aval, ez in *. destruct (startswith "0x" v) eqn:X; [|congruence].
  destruct HL as [(_ & y & Hy & _)|(Q & _)]; [|congruence]. rewrite Hy in *. f_equal. rewrite <- E.
  symmetry. eapply (ev_lit _ _ _ HE); eauto.
Qed.

Lemma nth_args c k z : In c instrs -> (forall v, In v (c_in c) -> lit_ok v \/ user_name v) ->
  nth_error (map val (map (aval sem final_env) (c_in c))) k = Some z -> nth_val ez c k z.
Proof.
  intros Hc HL H. rewrite !nth_error_map in H. destruct (nth_error (c_in c) k) as [v|] eqn:E; [|discriminate].
  injection H as H. exists v. split; [exact E|]. eapply arg_value; eauto using nth_error_In.
Qed.

Lemma range_args c b r : In c instrs -> (forall v, In v (c_in c) -> lit_ok v \/ user_name v) ->
  range_has (map val (map (aval sem final_env) (c_in c))) b r = true -> in_range ez c r b.
Proof.
  intros Hc HL H. unfold range_has in H. set (args := map val (map (aval sem final_env) (c_in c))) in *.
  destruct (nth_error args (fst r)) as [a|] eqn:Ea; [|discriminate].
  destruct (match snd r with Const c0 => Some c0 | Arg k => nth_error args k end) as [n|] eqn:En; [|discriminate].
  apply andb_true_iff in H as [H1 H2]. apply Z.leb_le in H1. apply Z.ltb_lt in H2.
  exists a, n. split; [apply nth_args; auto|]. split; [|lia].
  destruct (snd r) as [c0|k]; [congruence|]. apply nth_args; auto.
Qed.

Lemma first_args c a : In c instrs -> (forall v, In v (c_in c) -> lit_ok v \/ user_name v) ->
  first_is (map val (map (aval sem final_env) (c_in c))) a = true -> nth_val ez c 0 a.
Proof.
  intros Hc HL H. apply nth_args; auto. unfold first_is in H. destruct (map val _) as [|x l]; [discriminate|].
  apply Z.eqb_eq in H. subst. reflexivity.
Qed.

Lemma in_call_names c : In (c_op c) call_names <-> is_call c.
Proof. unfold call_names, is_call. tauto. Qed.

Lemma byte_reads c b : In c instrs -> (forall v, In v (c_in c) -> lit_ok v \/ user_name v) ->
  evm_reads (c_op c) (map val (map (aval sem final_env) (c_in c))) (Byte b) = true -> byte_read ez c b.
Proof.
  intros Hc HL H. cbn [evm_reads] in H. apply existsb_exists in H as (r & Hr & H). exists r. split; [exact Hr|].
  apply range_args; auto.
Qed.
Lemma byte_writes c b : In c instrs -> (forall v, In v (c_in c) -> lit_ok v \/ user_name v) ->
  evm_writes (c_op c) (map val (map (aval sem final_env) (c_in c))) (Byte b) = true -> byte_write ez c b.
Proof.
  intros Hc HL H. cbn [evm_writes] in H. apply orb_true_iff in H as [H|H].
  - left. apply String.eqb_eq. exact H.
  - right. apply existsb_exists in H as (r & Hr & H). exists r. split; [exact Hr|]. apply range_args; auto.
Qed.

Lemma slot_access_cases load store (P : place) x c args : In c instrs ->
  (P = Slot x /\ load = "sload" /\ store = "sstore" \/ P = TSlot x /\ load = "tload" /\ store = "tstore") ->
  (evm_reads (c_op c) args P = true -> (c_op c = load /\ first_is args x = true) \/ is_call c)
  /\ (evm_writes (c_op c) args P = true -> (c_op c = store /\ first_is args x = true) \/ (is_call c /\ c_op c <> "staticcall")).
Proof.
  intros Hc HP. assert (N := or_create _ HO c Hc).
  assert (R : mem (c_op c) (call_names ++ create_names) = true -> is_call c).
  { intros M. apply mem_In in M. apply in_app_iff in M as [M|M]; [apply in_call_names; exact M|].
    exfalso. apply N. right. exact M. }
  assert (W : mem (c_op c) (["call"; "callcode"; "delegatecall"] ++ create_names) = true -> is_call c /\ c_op c <> "staticcall").
  { intros M. apply mem_In in M. apply in_app_iff in M as [M|M]; [|exfalso; apply N; right; exact M].
    destruct M as [M|[M|[M|[]]]]; rewrite <- M; (split; [|discriminate]); apply (proj1 (in_call_names c)); rewrite <- M; simpl; auto. }
  destruct HP as [(-> & -> & ->)|(-> & -> & ->)]; cbn [evm_reads evm_writes]; (split; intros H;
    (apply orb_true_iff in H as [H|H]; [apply andb_true_iff in H as [H1 H2]; apply String.eqb_eq in H1; left; auto|right; auto])).
Qed.

Definition touch (c : cins) (l : place) : Prop := evm_depends (c_op c) (map val (map (aval sem final_env) (c_in c))) l.
Definition put (c : cins) (l : place) : Prop := evm_writes (c_op c) (map val (map (aval sem final_env) (c_in c))) l = true.

Lemma conflict_dep sto mm tra : compute_storage_dependences instrs = Ok sto ->
  compute_memory_dependences instrs = Ok mm -> compute_transient_dependences instrs = Ok tra ->
  forall m n c d, m < n -> nth_error instrs m = Some c -> nth_error instrs n = Some d ->
  (forall v, In v (c_in c) -> lit_ok v \/ user_name v) -> (forall v, In v (c_in d) -> lit_ok v \/ user_name v) ->
  (exists l, (put c l /\ touch d l) \/ (touch c l /\ put d l)) ->
  In (m, n) sto \/ In (m, n) mm \/ In (m, n) tra.
Proof.
  intros H1 H2 H3 m n c d L Hm Hn Lc Ld (l & K).
  pose proof (nth_error_In _ _ Hm) as Hc. pose proof (nth_error_In _ _ Hn) as Hd.
  assert (SL : forall load store P x deps, (P = Slot x /\ load = "sload" /\ store = "sstore" \/ P = TSlot x /\ load = "tload" /\ store = "tstore") ->
    slot_dependences [load; store] instrs = Ok deps -> (put c P /\ touch d P \/ touch c P /\ put d P) -> In (m, n) deps).
  { intros load store P x deps HP HD Q.
    destruct (slot_access_cases load store P x c (map val (map (aval sem final_env) (c_in c))) Hc HP) as [Rc Wc].
    destruct (slot_access_cases load store P x d (map val (map (aval sem final_env) (c_in d))) Hd HP) as [Rd Wd].
    assert (Nl : mem load call_ops = false /\ mem store call_ops = false
      /\ incl [load; store] ["sload"; "sstore"; "tload"; "tstore"]
      /\ ~ In load ["call"; "callcode"; "delegatecall"; "staticcall"] /\ ~ In store ["call"; "callcode"; "delegatecall"; "staticcall"]).
    { destruct HP as [(_ & -> & ->)|(_ & -> & ->)]; split; [reflexivity| |reflexivity|];
        (split; [reflexivity|]; split; [intros q [<-|[<-|[]]]; simpl; auto|split; simpl; intuition discriminate]). }
    destruct Nl as (Nl & Ns & Inc & Cl & Cs).
    assert (Tc : is_call c \/ In (c_op c) [load; store]).
    { destruct Q as [[Q _]|[[Q|Q] _]].
      - destruct (Wc Q) as [[E _]|[E _]]; auto. right. simpl; auto.
      - destruct (Rc Q) as [[E _]|E]; auto. right. simpl; auto.
      - destruct (Wc Q) as [[E _]|[E _]]; auto. right. simpl; auto. }
    assert (Td : is_call d \/ In (c_op d) [load; store]).
    { destruct Q as [[_ [Q|Q]]|[_ Q]].
      - destruct (Rd Q) as [[E _]|E]; auto. right. simpl; auto.
      - destruct (Wd Q) as [[E _]|[E _]]; auto. right. simpl; auto.
      - destruct (Wd Q) as [[E _]|[E _]]; auto. right. simpl; auto. }
    assert (Dec : forall z, is_call z \/ ~ is_call z).
    { intros z. unfold is_call. destruct (mem (c_op z) ["call"; "callcode"; "delegatecall"; "staticcall"]) eqn:M;
        [left; apply mem_In; exact M|right; apply mem_false; exact M]. }
    destruct (Dec c) as [Cc|Cc]; [eapply (calls_slot_ordered load store); eauto|].
    destruct (Dec d) as [Cd|Cd]; [eapply (calls_slot_ordered load store); eauto|].
    destruct Tc as [Tc|Tc]; [contradiction|]. destruct Td as [Td|Td]; [contradiction|].
    assert (Pc : put c P -> slot_write store ez c x).
    { intros Q'. destruct (Wc Q') as [[E F]|[E _]]; [|contradiction]. left. split; [exact E|]. apply first_args; auto. }
    assert (Pd : put d P -> slot_write store ez d x).
    { intros Q'. destruct (Wd Q') as [[E F]|[E _]]; [|contradiction]. left. split; [exact E|]. apply first_args; auto. }
    assert (Tc' : touch c P -> slot_read load ez c x \/ slot_write store ez c x).
    { intros [Q'|Q']; [|right; apply Pc; exact Q']. destruct (Rc Q') as [[E F]|E]; [|contradiction].
      left. left. split; [exact E|]. apply first_args; auto. }
    assert (Td' : touch d P -> slot_read load ez d x \/ slot_write store ez d x).
    { intros [Q'|Q']; [|right; apply Pd; exact Q']. destruct (Rd Q') as [[E F]|E]; [|contradiction].
      left. left. split; [exact E|]. apply first_args; auto. }
    apply (slot_deps_sound load store) with (instrs := instrs) (i := c) (j := d) (e := ez); auto.
    - destruct HP as [(_ & -> & _)|(_ & -> & _)]; reflexivity.
    - destruct HP as [(_ & _ & ->)|(_ & _ & ->)]; reflexivity.
    - apply mem_false; exact Nl.
    - apply mem_false; exact Ns.
    - exists x. destruct Q as [[Q1 Q2]|[Q1 Q2]].
      + left. split; auto.
      + destruct (Tc' Q1) as [T|T]; [right; auto|left; auto].
    - intros Q'. apply (or_create _ HO c Hc). right. exact Q'.
    - intros Q'. apply (or_create _ HO d Hd). right. exact Q'.
    - intros (a & b & A & B & [D|D]).
      + revert D. eapply (or_slots _ HO c d); eauto.
      + revert D. eapply (or_slots _ HO d c); eauto. }
  destruct l as [b|x|x|].
  - right; left. eapply memory_dependencies_sound; eauto. exists b.
    assert (Pc : put c (Byte b) -> byte_write ez c b) by (apply byte_writes; auto).
    assert (Pd : put d (Byte b) -> byte_write ez d b) by (apply byte_writes; auto).
    assert (Tc : touch c (Byte b) -> byte_read ez c b \/ byte_write ez c b)
      by (intros [Q|Q]; [left; apply byte_reads; auto|right; apply Pc; exact Q]).
    assert (Td : touch d (Byte b) -> byte_read ez d b \/ byte_write ez d b)
      by (intros [Q|Q]; [left; apply byte_reads; auto|right; apply Pd; exact Q]).
    destruct K as [[K1 K2]|[K1 K2]]; [left; auto|]. destruct (Tc K1); [right; auto|left; auto].
  - left. eapply (SL "sload" "sstore" (Slot x) x); eauto.
  - right; right. eapply (SL "tload" "tstore" (TSlot x) x); eauto.
  - left.
    assert (WR : forall op args, evm_writes op args Elsewhere = true -> evm_reads op args Elsewhere = true).
    { intros op args Q. cbn [evm_reads evm_writes] in *. apply mem_In. apply mem_In in Q. apply in_app_iff. right. exact Q. }
    assert (Both : is_call c /\ is_call d).
    { destruct K as [[K1 K2]|[K1 K2]].
      - destruct (or_else _ HO m n c d) as [Q1 Q2]; auto; [lia|destruct K2 as [K2|K2]; [exact K2|apply WR in K2; exact K2]].
      - destruct (or_else _ HO n m d c) as [Q1 Q2]; auto; [lia|destruct K1 as [K1|K1]; [exact K1|apply WR in K1; exact K1]]. }
    eapply (calls_slot_ordered "sload" "sstore"); eauto; try reflexivity; left; tauto.
Qed.

(** Everything together. *)
Theorem block_dependencies :
  (forall i, In i (s_instrs s) -> respects sem (block_fp val) i)
  /\ deps_cover (block_fp val) (s_deps s) (s_instrs s) (fst (exec_prog sem (s_instrs s) (e0, w0))).
Proof.
  unfold build_spec in HS. apply bind_ok in HS as ([[s' pos] unused] & H1 & H). apply bind_ok in H as (deps & H2 & H).
  injection H as Es.
  destruct (build_sequence_shape instrs initial split final s' pos unused HB HF H1)
    as (st & extra & S & P & Ep & Ei & K & Tg & A).
  assert (Ei' : s_instrs s = s_instrs s') by (rewrite <- Es; reflexivity).
  assert (Ed : s_deps s = flat_map (delete_unused unused) deps) by (rewrite <- Es; reflexivity).
  rewrite Ei', Ed, Ei. clear Ei' Ed Es.
  set (keep := fun i => negb (mem (i_id i) unused)) in *.
  assert (Sub : forall i, In i (filter keep (b_ui st)) -> In i (b_ui st)) by (intros i Hi; apply filter_In in Hi; tauto).
  split.
  { intros i Hi. destruct (pc_from _ _ P i (Sub i Hi)) as [Q|(k & c & Q1 & Q2 & Q3 & Q4 & Q5)].
    - apply block_respects_push. exact Q.
    - eapply block_respects_op; eauto. symmetry. clear - Q4; induction Q4; simpl; congruence. }
  (* values of the arguments *)
  pose proof (A V place LV sem e0 w0) as AG.
  destruct (dce_exec sem (b_ui st) keep (si_nodup _ _ _ _ S) (ks_closed _ _ _ K)) with (e := e0) (w := w0) as (D1 & D2).
  { intros i Hi Q args w. destruct (pc_from _ _ P i Hi) as [(z & o & Hp & _)|(k & c & Q1 & (L1 & L2 & L3 & L4 & _) & _)].
    - rewrite (is_push_denote sem i z args w Hp). reflexivity.
    - rewrite L4. apply (block_marked c); [eapply nth_error_In; eauto|]. rewrite <- L3. destruct (i_storage i) eqn:Sg; [|reflexivity].
      rewrite (ks_storage _ _ _ K i Hi Sg) in Q. discriminate. }
  set (ef := fst (exec_prog sem (filter keep (b_ui st)) (e0, w0))) in *.
  assert (Args : forall i c, In i (filter keep (b_ui st)) -> Forall2 (val_of st) (c_in c) (i_inpt i) ->
     (forall v, In v (c_in c) -> lit_ok v \/ user_name v) -> map ef (i_inpt i) = map (aval sem final_env) (c_in c)).
  { intros i c Hi F Hv. pose proof Hi as Hi'. apply filter_In in Hi' as [Hi1 Hi2].
    assert (E1 : map ef (i_inpt i) = map (fst (exec_prog sem (b_ui st) (e0, w0))) (i_inpt i)).
    { apply map_ext_in. intros x Hx. unfold ef. apply D2. intros j Hj Xj. exact (ks_closed _ _ _ K i j x Hi1 Hj Hi2 Hx Xj). }
    rewrite E1. eapply Forall2_map_eq; [exact F|]. intros v o Hvi Vo.
    eapply (val_of_value sem e0 w0 instrs [] extra); eauto. }
  unfold process_dependences in H2.
  apply bind_ok in H2 as (sto & C1 & H2). apply bind_ok in H2 as (sto' & R1 & H2).
  apply bind_ok in H2 as (mm & C2 & H2). apply bind_ok in H2 as (mm' & R2 & H2).
  apply bind_ok in H2 as (tra & C3 & H2). apply bind_ok in H2 as (tra' & R3 & H2).
  apply bind_ok in H2 as (gas & C4 & H2). apply bind_ok in H2 as (gas' & R4 & H2). injection H2 as <-.
  subst pos.
  (* accesses are kept *)
  assert (AK : forall u id, access_at instrs u -> pos_id (b_pos st) u = Some id -> mem id unused = false).
  { intros u id (c & Hc & Ha) Hu. destruct (pc_to _ _ P u id Hu) as (c' & i & Q1 & Q2 & Q3 & Q4).
    assert (c' = c) by congruence. subst c'. pose proof (nth_error_In _ _ Hc) as Hci.
    assert (N : c_op c <> "callcode") by (intros Q; apply (or_create _ HO c Hci); rewrite Q; simpl; auto).
    destruct (accessing_cases _ Ha N) as (N1 & N2 & Cs).
    destruct Q4 as [(L1 & L2 & L3 & L4 & L5)|[Q4|Q4]]; [|congruence|contradiction].
    assert (Kp : keep i = true).
    { destruct Cs as [Cs|Cs].
      - apply (ks_storage _ _ _ K i Q2). congruence.
      - destruct (HU c Hci Cs) as (x & X1 & X2).
        apply (needed_kept instrs initial _ st extra (s_tgt s') keep HB (or_create _ HO) S P K Tg x X2); [|exact Q2|congruence].
        exact (ssa_out_names _ _ HB c x Hci X1). }
    unfold keep in Kp. apply negb_true_iff in Kp. congruence. }
  intros n m i j Lnm Hn Hm (l & Cf).
  pose proof (nth_error_In _ _ Hn) as Hni. pose proof (nth_error_In _ _ Hm) as Hmj.
  cbn [reads writes block_fp] in Cf.
  assert (NP : push1 i \/ push1 j -> False).
  { intros [Q|Q]; eapply push1_no_write; try exact Q; unfold evm_depends; instantiate (1 := l).
    - destruct Cf as [[C _]|[C _]]; [right; exact C|exact C].
    - destruct Cf as [[_ [C|C]]|[_ C]]; [exact C|right; exact C|right; exact C]. }
  destruct (pc_from _ _ P i (Sub i Hni)) as [Q|(ki & ci & I1 & I2 & I3 & I4 & I5)]; [exfalso; auto|].
  destruct (pc_from _ _ P j (Sub j Hmj)) as [Q|(kj & cj & J1 & J2 & J3 & J4 & J5)]; [exfalso; auto|].
  (* positions *)
  assert (Ord : exists n' m', n' < m' /\ nth_error (b_ui st) n' = Some i /\ nth_error (b_ui st) m' = Some j).
  { clear -Lnm Hn Hm. revert n m Lnm Hn Hm. induction (b_ui st) as [|u U IH]; intros n m L Hn Hm; [destruct n; discriminate|].
    simpl in Hn, Hm. destruct (keep u).
    - destruct n as [|n].
      + destruct m as [|m]; [lia|]. simpl in Hn, Hm. injection Hn as ->. apply nth_error_In, filter_In in Hm as [Hm _].
        apply In_nth_error in Hm as (m' & Hm'). exists 0, (Datatypes.S m'). split; [lia|]. auto.
      + destruct m as [|m]; [lia|]. destruct (IH n m) as (n' & m' & L' & A & B); auto; [lia|].
        exists (Datatypes.S n'), (Datatypes.S m'). split; [lia|]. auto.
    - destruct (IH n m) as (n' & m' & L' & A & B); auto. exists (Datatypes.S n'), (Datatypes.S m'). split; [lia|]. auto. }
  destruct Ord as (n' & m' & L' & Hn' & Hm').
  assert (Lk : ki < kj).
  { destruct (lt_eq_lt_dec ki kj) as [[Q|Q]|Q]; [exact Q| |].
    - subst kj. assert (E : i_id i = i_id j) by congruence.
      pose proof (nodup_ids_inj _ _ _ _ _ (si_idnd _ _ _ _ S) Hn' Hm' E). lia.
    - pose proof (pc_mono _ _ P kj ki m' n' j i J3 I3 Hm' Hn' Q). lia. }
  pose proof (nth_error_In _ _ I1) as Hci. pose proof (nth_error_In _ _ J1) as Hcj.
  rewrite (Args i ci Hni I4 I5), (Args j cj Hmj J4 J5) in Cf.
  destruct I2 as (Li & _). destruct J2 as (Lj & _).
  assert (Conf : exists l, (put ci l /\ touch cj l) \/ (touch ci l /\ put cj l)).
  { exists l. unfold put, touch, evm_depends in *. rewrite Li, Lj in Cf.
    destruct (supported_lower ci (map val (map (aval sem final_env) (c_in ci))) l (ssa_supported _ _ HB ci Hci)) as [E1 E2].
    destruct (supported_lower cj (map val (map (aval sem final_env) (c_in cj))) l (ssa_supported _ _ HB cj Hcj)) as [E3 E4].
    rewrite E1, E2, E3, E4 in Cf. tauto. }
  pose proof (conflict_dep sto mm tra C1 C2 C3 ki kj ci cj Lk I1 J1 I5 J5 Conf) as Dep.
  assert (Fin : forall d d', replace_pos_instrsid (b_pos st) (simplify_dependences d) = Ok d' ->
     (forall u v, In (u, v) d -> u < v < length instrs) -> (forall u v, In (u, v) d -> access_at instrs u /\ access_at instrs v) ->
     In d' [sto'; mm'; tra'; gas'] -> In (ki, kj) d ->
     clos_trans string (fun a b => In (a, b) (flat_map (delete_unused unused) [sto'; mm'; tra'; gas'])) (i_id i) (i_id j)).
  { intros d d' R F Ac Hd' Hin.
    destruct (path_kept (b_pos st) unused d d' R) with (u := ki) (v := kj) as (a & b & A1 & A2 & A3); auto.
    - intros u v Huv. apply (F u v Huv).
    - intros u v id Huv [Q|Q]; [apply (AK u)|apply (AK v)]; auto; apply (Ac u v Huv).
    - rewrite I3 in A1. rewrite J3 in A2. injection A1 as <-. injection A2 as <-.
      clear -A3 Hd'. induction A3 as [x y H|x y z H1 IH1 H2 IH2]; [apply t_step|eapply t_trans; eauto].
      apply in_flat_map. exists d'. auto. }
  assert (Acc1 : incl ["sload"; "sstore"] accessing) by (intros q [<-|[<-|[]]]; simpl; auto 20).
  assert (Acc2 : incl ["tload"; "tstore"] accessing) by (intros q [<-|[<-|[]]]; simpl; auto 20).
  destruct Dep as [Dep|[Dep|Dep]].
  - apply (Fin sto sto' R1); [exact (slot_deps_forward _ _ _ C1)|exact (slot_deps_access _ _ _ Acc1 C1)|simpl; auto|exact Dep].
  - apply (Fin mm mm' R2); [exact (memory_deps_forward _ _ C2)|exact (memory_deps_access _ _ C2)|simpl; auto|exact Dep].
  - apply (Fin tra tra' R3); [exact (slot_deps_forward _ _ _ C3)|exact (slot_deps_access _ _ _ Acc2 C3)|simpl; auto|exact Dep].
Qed.
End Block.

(** Dependencies mention kept operations only, and follow their order. *)
Lemma replace_pos_from pos deps deps' : replace_pos_instrsid pos deps = Ok deps' -> forall ia ib, In (ia, ib) deps' ->
  exists a b, In (a, b) deps /\ pos_id pos a = Some ia /\ pos_id pos b = Some ib.
Proof.
  unfold replace_pos_instrsid. revert deps'. induction deps as [|[a b] deps IH]; intros deps' H ia ib Hin; cbn [map_result] in H.
  - injection H as <-. destruct Hin.
  - apply bind_ok in H as (x & H1 & H). apply bind_ok in H as (xs & H2 & H). injection H as <-.
    destruct Hin as [->|Hin].
    + cbn [fst snd] in H1. destruct (pos_id pos a) as [qa|] eqn:Ea; [|discriminate].
      destruct (pos_id pos b) as [qb|] eqn:Eb; [|discriminate]. injection H1 as -> ->. exists a, b. simpl; auto.
    + destruct (IH _ H2 ia ib Hin) as (a' & b' & Q1 & Q2 & Q3). exists a', b'. simpl; auto.
Qed.

Lemma filter_nth_order {A} (keep : A -> bool) U : forall n m i j, n < m -> nth_error U n = Some i -> nth_error U m = Some j ->
  keep i = true -> keep j = true ->
  exists n' m', n' < m' /\ nth_error (filter keep U) n' = Some i /\ nth_error (filter keep U) m' = Some j.
Proof.
  induction U as [|u U IH]; intros n m i j L Hn Hm Ki Kj; [destruct n; discriminate|].
  destruct m as [|m]; [lia|]. simpl in Hm. destruct n as [|n]; simpl in Hn.
  - injection Hn as ->. simpl. rewrite Ki. apply nth_error_In in Hm.
    assert (Q : In j (filter keep U)) by (apply filter_In; auto). apply In_nth_error in Q as (m' & Q).
    exists 0, (Datatypes.S m'). split; [lia|]. auto.
  - destruct (IH n m i j) as (n' & m' & L' & A1 & A2); auto; [lia|]. simpl. destruct (keep u).
    + exists (Datatypes.S n'), (Datatypes.S m'). split; [lia|]. auto.
    + exists n', m'. auto.
Qed.

Theorem block_dependencies_forward instrs initial split final s :
  ssa_block instrs initial -> (forall v, In v (stack_before_split split final) -> layout_name v) ->
  build_spec instrs split initial final = Ok s ->
  forall a b, In (a, b) (s_deps s) -> exists n m i j, n < m
    /\ nth_error (s_instrs s) n = Some i /\ nth_error (s_instrs s) m = Some j /\ i_id i = a /\ i_id j = b.
Proof.
  intros HB HF HS. unfold build_spec in HS.
  apply bind_ok in HS as ([[s' pos] unused] & H1 & H). apply bind_ok in H as (deps & H2 & H). injection H as <-.
  cbn [s_deps s_instrs].
  destruct (build_sequence_shape instrs initial split final s' pos unused HB HF H1)
    as (st & extra & S & P & -> & -> & _).
  intros a b Hab. apply in_flat_map in Hab as (d & Hd & Hab). unfold delete_unused in Hab.
  apply filter_In in Hab as [Hab K]. cbn [fst snd] in K. apply andb_true_iff in K as [Ka Kb].
  unfold process_dependences in H2.
  apply bind_ok in H2 as (sto & C1 & H2). apply bind_ok in H2 as (sto' & R1 & H2).
  apply bind_ok in H2 as (mm & C2 & H2). apply bind_ok in H2 as (mm' & R2 & H2).
  apply bind_ok in H2 as (tra & C3 & H2). apply bind_ok in H2 as (tra' & R3 & H2).
  apply bind_ok in H2 as (gas & C4 & H2). apply bind_ok in H2 as (gas' & R4 & H2). injection H2 as <-.
  assert (X : exists u v, u < v /\ pos_id (b_pos st) u = Some a /\ pos_id (b_pos st) v = Some b).
  { assert (X : forall e e', replace_pos_instrsid (b_pos st) (simplify_dependences e) = Ok e' ->
      (forall u v, In (u, v) e -> u < v) -> In (a, b) e' ->
      exists u v, u < v /\ pos_id (b_pos st) u = Some a /\ pos_id (b_pos st) v = Some b).
    { intros e e' R F Hin. destruct (replace_pos_from _ _ _ R a b Hin) as (u & v & Q1 & Q2 & Q3).
      exists u, v. split; [|auto]. apply F. apply simplify_edge in Q1. tauto. }
    destruct Hd as [<-|[<-|[<-|[<-|[]]]]].
    - apply (X sto sto' R1); [|exact Hab]. intros u v Q. apply (slot_deps_forward _ _ _ C1 u v Q).
    - apply (X mm mm' R2); [|exact Hab]. intros u v Q. apply (memory_deps_forward _ _ C2 u v Q).
    - apply (X tra tra' R3); [|exact Hab]. intros u v Q. apply (slot_deps_forward _ _ _ C3 u v Q).
    - apply (X gas gas' R4); [|exact Hab]. intros u v Q. apply (gas_deps_spec _ _ C4 u v). exact Q. }
  destruct X as (u & v & L & Hu & Hv).
  destruct (pc_to _ _ P u a Hu) as (c & i & _ & Hi & <- & _). destruct (pc_to _ _ P v b Hv) as (c' & j & _ & Hj & <- & _).
  apply In_nth_error in Hi as (n & Hn). apply In_nth_error in Hj as (m & Hm).
  pose proof (pc_mono _ _ P u v n m i j Hu Hv Hn Hm L) as L'.
  destruct (filter_nth_order (fun i => negb (mem (i_id i) unused)) _ n m i j L' Hn Hm Ka Kb) as (n' & m' & Q1 & Q2 & Q3).
  exists n', m', i, j. auto.
Qed.
