(** C45: combining and removing blocks keeps the meaning of whole objects, and the
    result is ready for the insertion of jumps. *)
From Coq Require Import Relations.
From Verif Require Import Base Lexical SymExecModel MachineSpec DepsModel SpecSem UtilModel UtilProps UnifyProps LiveModel CfgModel CfgSpec CfgProps CombineProps MergePassProps RemoveProps JumpModel ProgSem JumpSpec JumpProps CombineModel ObjCombineSpec ObjSem ObjSim ObjSplit ObjErase ObjProgram ObjProps ObjCombine ObjFit.
Open Scope string_scope. Open Scope list_scope.

Theorem combine_keeps_meaning_partial : forall split_ops ob, combinable ob ->
  exists ob', combine_remove_object split_ops ob = Ok ob' /\ same_meaning ob ob'.
Proof.
  intros so ob [ND C T SF NC TE JP].
  assert (K : forall c g, blocks_at ob c = Some g -> exists g', combine_remove_block_list so (map fst (ob_functions ob)) g = Ok g' /\ forall c ox, blocks_at ox c = Some g -> same_meaning ox (put_comp c g' ox)).
  { intros c g B. apply blocks_component in B. apply combine_remove_same; eauto. }
  destruct (combine_object_ok so ob ND) as (ob' & E & NM & BL & AR); [intros c g B; destruct (K c g B) as (g' & Q & _); eauto|].
  exists ob'. split; [exact E|]. apply put_comps; auto. intros c g B. destruct (BL c g B) as (g' & E1 & B'). exists g'. split; [exact B'|]. destruct (K c g B) as (g2 & E2 & S). rewrite E1 in E2. injection E2 as <-. apply S.
Qed.

Definition plain_instr (ob : cobject) (c : option string) (i : linstr) : Prop :=
  ~ In (li_op i) ["PUSH [tag]"; "JUMP"; "JUMPI"]
  /\ (In (li_op i) (map fst (ob_functions ob)) -> forall v, In v (li_ins i) -> numeral v = false)
  /\ (li_op i = "functionReturn" -> forall r, return_name ob c = Some r -> ~ In r (li_ins i))
  /\ (forall o, In o (li_outs i) -> numeral o = false)
  /\ (forall v, In v (li_ins i) -> startswith "0x" v = true -> py_int16 v <> None)
  /\ (li_op i = "PhiFunction" -> exists o, li_outs i = [o]) /\ li_op i <> "invalid".
Theorem combined_object_ok_partial : forall split_ops ob, object_ok ob -> object_readable ob -> combinable ob -> separable ob ->
  exists ob', combine_remove_object split_ops ob = Ok ob' /\ object_ok ob' /\ object_readable ob'.
Proof.
  intros so ob OO OR CM SP. pose proof CM as [ND C T SF NC TE JP].
  set (returning := fun f => In f (map fst (ob_functions ob)) /\ return_name ob (Some f) <> None).
  set (PS := fun f => In f (leaving ++ map fst (ob_functions ob))).
  set (PC := fun v => startswith "0x" v = true -> py_int16 v <> None).
  assert (F : forall c g, component ob c g -> fit (plain_instr ob c) PC returning PS g).
  { intros c g K. split.
    - intros x b L. apply (oo_links ob OO c g x b K L).
    - intros x b L. apply (oo_exits ob OO c g x b K L).
    - intros x b L. apply (oo_phis ob OO c g x b K L).
    - intros x b i L. apply (oo_split ob OO c g x b i K L).
    - intros x b pre i post L. apply (oo_leaving ob OO c g x b pre i post K L).
    - intros x b i L. apply (sp_leaving ob SP c g x b i K L).
    - intros x b i L I. destruct (oo_plain ob OO c g x b i K L I) as (A1 & A2 & A3). repeat (split; [assumption|]).
      split; [intros o; exact (or_outs ob OR c g x b i o K L I)|]. split; [intros v; exact (or_literals ob OR c g x b i v K L I)|]. split; [exact (or_phis ob OR c g x b i K L I)|exact (or_invalid ob OR c g x b i K L I)].
    - intros x b v L. exact (or_conds ob OR c g x b v K L).
    - intros x b pre i L Q (R1 & R2) H. apply R2. exact (or_exit ob OR c g x b pre i K L H Q R1).
    - intros x b pre i y L Q (R1 & R2) E. exact (sp_calls ob SP c g x b pre i y K L Q R1 R2 E).
    - intros s x S I. exact (sp_reach ob SP c g s x K S I). }
  assert (K : forall c g, component ob c g -> exists g', combine_remove_block_list so (map fst (ob_functions ob)) g = Ok g' /\ consistent g' /\ MergePassProps.tidy g' /\ incl (map fst (cl_blocks g')) (map fst (cl_blocks g)) /\ (cl_return g' = [] <-> cl_return g = []) /\ fit (plain_instr ob c) PC returning PS g').
  { intros c g B. unfold combine_remove_block_list. destruct (combine_blocks_merges so (map fst (ob_functions ob)) g (C c g B) (T c g B) (SF c g B) (NC c g B)) as (g1 & E1 & C1 & T1 & _ & _ & MS). rewrite E1. cbn [bind].
    destruct (merges_fit _ _ _ _ g g1 MS (JP c g B) (F c g B)) as (F1 & _). destruct (removed_fit _ _ _ _ g1 C1 T1 F1) as (g2 & E2 & C2 & T2 & F2 & N2 & R2). exists g2. split; [exact E2|]. split; [exact C2|]. split; [exact T2|].
    split; [intros x I; apply (merges_names g g1 MS), N2, I|]. split; [|exact F2]. rewrite R2. apply (merges_return _ _ _ _ g g1 MS (JP c g B) (F c g B)). }
  destruct (combine_object_ok so ob ND) as (ob' & E & NM & BL & AR); [intros c g B; apply blocks_component in B; destruct (K c g B) as (g' & Q & _); eauto|]. exists ob'. split; [exact E|].
  assert (CP : forall c g', component ob' c g' -> exists g, component ob c g /\ (incl (map fst (cl_blocks g')) (map fst (cl_blocks g)) /\ (cl_return g' = [] <-> cl_return g = [])) /\ consistent g' /\ MergePassProps.tidy g' /\ fit (plain_instr ob c) PC returning PS g').
  { intros c g' B'. apply blocks_component in B'. assert (N : blocks_at ob c <> None).
    { apply comp_names_In. unfold comp_names. rewrite <- NM. apply comp_names_In. congruence. }
    destruct (blocks_at ob c) as [g|] eqn:B; [|congruence]. destruct (BL c g B) as (g2 & E2 & B2). rewrite B' in B2. injection B2 as <-. apply blocks_component in B. destruct (K c g B) as (g3 & E3 & C3 & T3 & M3 & R3 & F3).
    rewrite E2 in E3. injection E3 as <-. exists g. auto. }
  assert (RN : forall c, return_name ob' c = return_name ob c).
  { intros [f|]; [|reflexivity]. unfold return_name. destruct (lookup f (ob_functions ob')) as [k'|] eqn:L'.
    - destruct (CP (Some f) (fn_blocks k')) as (g & (k & L & <-) & (_ & Q) & _); [exists k'; auto|]. rewrite L.
      destruct (cl_return (fn_blocks k')) as [|r l], (cl_return (fn_blocks k)) as [|r2 l2]; try reflexivity; [destruct Q as (Q & _); discriminate (Q eq_refl)|destruct Q as (_ & Q); discriminate (Q eq_refl)].
    - destruct (lookup f (ob_functions ob)) as [k|] eqn:L; [|reflexivity]. exfalso. apply lookup_In_key in L. rewrite <- NM in L. apply key_lookup in L as (? & L). congruence. }
  assert (BN : forall c x, block_name ob' c x -> block_name ob c x).
  { intros c x (g' & B' & I). destruct (CP c g' B') as (g & B & (MS & _) & _). exists g. split; [exact B|]. exact (MS x I). }
  assert (FA : forall f k', lookup f (ob_functions ob') = Some k' -> exists k, lookup f (ob_functions ob) = Some k /\ fn_args k' = fn_args k).
  { intros f k' L. specialize (AR f). rewrite L in AR. destruct (lookup f (ob_functions ob)) as [k|]; [|discriminate]. cbn in AR. injection AR as AR. eauto. }
  split; split.
  - now rewrite NM.
  - rewrite NM. apply OO.
  - destruct (CP None (ob_main ob') eq_refl) as (g & B & (_ & MR) & _). cbn in B. subst g. apply MR. apply OO.
  - intros c g' B'. destruct (CP c g' B') as (g & B & MS & C' & _). exact C'.
  - intros c g' x b B' L. destruct (CP c g' B') as (g & B & MS & C' & T' & F'). split; [exact (f_links _ _ _ _ g' F' x b L)|exact (t_targets g' T' x b L)].
  - intros c g' x b B' L. destruct (CP c g' B') as (g & B & MS & C' & T' & F'). exact (f_exits _ _ _ _ g' F' x b L).
  - intros c g' x b B' L. destruct (CP c g' B') as (g & B & MS & C' & T' & F'). exact (f_phis _ _ _ _ g' F' x b L).
  - intros c g' x b i B' L. destruct (CP c g' B') as (g & B & MS & C' & T' & F'). rewrite NM. exact (f_split _ _ _ _ g' F' x b i L).
  - intros c g' x b pre i post B' L. destruct (CP c g' B') as (g & B & MS & C' & T' & F'). exact (f_leave _ _ _ _ g' F' x b pre i post L).
  - intros c g' x b i B' L I. destruct (CP c g' B') as (g & B & MS & C' & T' & F'). rewrite NM, RN. destruct (f_instrs _ _ _ _ g' F' x b i L I) as (A1 & A2 & A3 & _). auto.
  - intros c1 c2 x y w B1 B2 FW Q. exact (oo_names ob OO c1 c2 x y w (BN _ _ B1) (BN _ _ B2) FW Q).
  - intros f k' r L R. destruct (FA f k' L) as (k & L0 & ->). rewrite RN in R. exact (or_returns ob OR f k r L0 R).
  - intros f k' x L. destruct (FA f k' L) as (k & L0 & ->). exact (or_params ob OR f k x L0).
  - intros c g' x b i o B' L I. destruct (CP c g' B') as (g & B & MS & C' & T' & F'). destruct (f_instrs _ _ _ _ g' F' x b i L I) as (_ & _ & _ & A & _). apply A.
  - intros c g' x b i v B' L I. destruct (CP c g' B') as (g & B & MS & C' & T' & F'). destruct (f_instrs _ _ _ _ g' F' x b i L I) as (_ & _ & _ & _ & A & _). apply A.
  - intros c g' x b v B' L. destruct (CP c g' B') as (g & B & MS & C' & T' & F'). exact (f_conds _ _ _ _ g' F' x b v L).
  - intros c g' x b i B' L I. destruct (CP c g' B') as (g & B & MS & C' & T' & F'). destruct (f_instrs _ _ _ _ g' F' x b i L I) as (_ & _ & _ & _ & _ & A & _). exact A.
  - intros c g' x b i B' L I. destruct (CP c g' B') as (g & B & MS & C' & T' & F'). destruct (f_instrs _ _ _ _ g' F' x b i L I) as (_ & _ & _ & _ & _ & _ & A). exact A.
  - intros c g' x b pre i B' L H Q I. rewrite NM in I. rewrite RN. destruct (CP c g' B') as (g & B & MS & C' & T' & F'). destruct (return_name ob (Some (li_op i))) eqn:R; [|reflexivity]. exfalso.
    apply (f_last _ _ _ _ g' F' x b pre i L Q); [split; [exact I|congruence]|exact H].
Qed.

(** The two passes that follow one another: the program does what the object did
    before the blocks were combined. *)
Theorem combine_and_jumps_keep_meaning_partial : forall split_ops ob, object_ok ob -> object_readable ob -> combinable ob -> separable ob ->
  exists ob1 ob' tags, combine_remove_object split_ops ob = Ok ob1 /\ insert_and_split ob1 = Ok (ob', tags)
    /\ forall (V Loc LV : Type) (sem : semantics V Loc LV) truth blank e w,
        let p := program_of ob' in
        let start := Run None None (k_start (g_main p)) e w [] in
        (forall op args w', stops (machine_words sem truth blank) ob w op args w' -> exists n, csteps sem truth blank n p start = Some (Halt op args w'))
        /\ (goes_on (machine_words sem truth blank) ob w -> forall n, exists c from b e' w' frames, csteps sem truth blank n p start = Some (Run c from b e' w' frames)).
Proof.
  intros so ob OO OR CM SP. destruct (combined_object_ok_partial so ob OO OR CM SP) as (ob1 & E & OO1 & OR1). destruct (combine_keeps_meaning_partial so ob CM) as (ob2 & E2 & S). rewrite E in E2. injection E2 as <-.
  destruct (jumps_keep_meaning_partial ob1 OO1 OR1) as (ob' & tags & R & J). exists ob1, ob', tags. split; [exact E|]. split; [exact R|]. intros V Loc LV sem truth blank e w. cbv zeta.
  destruct (J V Loc LV sem truth blank e w) as (J1 & J2). destruct (S V (Loc -> LV) (machine_words sem truth blank) w) as (S1 & S2). split.
  - intros op args w' H. apply J1, S1, H.
  - intros H. apply J2, S2, H.
Qed.
Print Assumptions combine_keeps_meaning_partial.
Print Assumptions combined_object_ok_partial.
Print Assumptions combine_and_jumps_keep_meaning_partial.
