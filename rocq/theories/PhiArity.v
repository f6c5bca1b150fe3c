(** The passes keep one argument of each phi function for each entry of its block. *)
From Verif Require Import Base Lexical UtilModel UtilProps UnifyProps LiveModel CfgModel CfgSpec CfgProps CombineProps MergePassProps RemoveProps JumpModel JumpSpec JumpTrace JumpProps CombineModel ObjCombineSpec ObjSem ObjSim ObjErase ObjCombine ObjFit ConstSpec.
Open Scope string_scope. Open Scope list_scope.

Definition phis_fit (g : clist) : Prop := forall x b i, lookup x (cl_blocks g) = Some b -> In i (cb_instrs b) -> li_op i = "PhiFunction" -> length (li_ins i) = length (cb_entries b).

Lemma merge_phis g a b ba bb g' : consistent g -> MergePassProps.tidy g -> joins_have_phis g -> mergeable g a b ba bb -> merge_blocks a b g = Ok g' -> phis_fit g -> phis_fit g'.
Proof.
  intros C T JP M E F x bx i L I P. pose proof (mergeable_lone g a b ba bb C T M) as LO. destruct (merge_lookup g a b ba bb C M) as (g2 & E2 & _ & LG & _). rewrite E in E2. injection E2 as <-. pose proof M as [LA LB _ _ _ _ _ _].
  rewrite LG in L. destruct (String.eqb_spec x a) as [->|].
  - injection L as <-. change (In i (cb_instrs ba ++ cb_instrs bb)) in I. change (length (li_ins i) = length (cb_entries ba)). apply in_app_iff in I as [I|I]; [exact (F a ba i LA I P)|]. now elim (JP b bb LB LO i I).
  - destruct (String.eqb x b); [discriminate|]. destruct (lookup x (cl_blocks g)) as [b0|] eqn:L0; [|discriminate]. cbn [option_map] in L. injection L as <-.
    change (length (li_ins i) = length (map (subst b a) (cb_entries b0))). rewrite map_length. exact (F x b0 i L0 I P).
Qed.
Lemma merges_phis g g' : merges g g' -> joins_have_phis g -> phis_fit g -> phis_fit g'.
Proof.
  intros MS JP F. enough (phis_fit g' /\ joins_have_phis g') by tauto. induction MS as [|a b ba bb g1 g2 _ (F1 & J1) C T M CN E]; [auto|]. split; [eapply merge_phis; eauto|eapply merge_joins; eauto].
Qed.
Lemma removed_phis g g' : consistent g -> remove_blocks_block_list g = Ok g' -> phis_fit g -> phis_fit g'.
Proof.
  intros C E F x b i L. destruct (c_start g C) as (s & S & I). destruct (remove_blocks_reachable g s C S) as (g2 & E2 & Q1 & LG & Q2). assert (QG : g2 = g') by congruence. rewrite QG in LG. exact (F x b i (proj1 (proj1 (LG x b) L))).
Qed.

Definition object_phis (ob : cobject) : Prop := forall c g, component ob c g -> phis_fit g.
Lemma combine_phis so ob ob' : combinable ob -> combine_remove_object so ob = Ok ob' -> object_phis ob -> object_phis ob'.
Proof.
  intros [ND C T SF NC TE JP] E F.
  assert (K : forall c g, component ob c g -> exists g', combine_remove_block_list so (map fst (ob_functions ob)) g = Ok g' /\ phis_fit g').
  { intros c g B. unfold combine_remove_block_list. destruct (combine_blocks_merges so (map fst (ob_functions ob)) g (C c g B) (T c g B) (SF c g B) (NC c g B)) as (g1 & E1 & C1 & T1 & _ & _ & MS). rewrite E1. cbn [bind].
    destruct (c_start g1 C1) as (s & S & _). destruct (remove_blocks_reachable g1 s C1 S) as (g2 & E2 & _). exists g2. split; [exact E2|]. apply (removed_phis g1 g2 C1 E2). apply (merges_phis g g1 MS (JP c g B) (F c g B)). }
  destruct (combine_object_ok so ob ND) as (ob2 & E2 & NM & BL & _); [intros c g B; apply blocks_component in B; destruct (K c g B) as (g' & Q & _); eauto|]. rewrite E in E2. injection E2 as <-.
  intros c g' B'. apply blocks_component in B'. assert (N : blocks_at ob c <> None).
  { apply comp_names_In. unfold comp_names. rewrite <- NM. apply comp_names_In. congruence. }
  destruct (blocks_at ob c) as [g|] eqn:B; [|congruence]. destruct (BL c g B) as (g2 & E2 & B2). rewrite B' in B2. injection B2 as <-. apply blocks_component in B. destruct (K c g B) as (g3 & E3 & F3). rewrite E2 in E3. injection E3 as <-. exact F3.
Qed.

(** Tags, jumps and separation of blocks. *)
Lemma before_phi fns ret e i : ~ In "PhiFunction" fns -> li_op i = "PhiFunction" -> In (Do i) (before fns ret e) <-> e = Do i.
Proof.
  intros NP P. destruct e as [j|v t]; [|cbn; split; [intros [H|[]]; discriminate|discriminate]]. unfold before. split.
  - destruct (mem (li_op j) ["PUSH [tag]"; "JUMP"; "JUMPI"]) eqn:M; [intros []|]. destruct (mem (li_op j) fns) eqn:MF.
    { intros [H|[]]. injection H as H. subst i. cbn in P. apply mem_In in MF. rewrite P in MF. contradiction. }
    destruct (String.eqb_spec (li_op j) "functionReturn") as [Q|_].
    { intros [H|[]]. injection H as H. subst i. cbn in P. congruence. }
    intros [H|[]]. exact H.
  - intros H. injection H as ->. rewrite P. cbn [mem String.eqb Ascii.eqb Bool.eqb]. destruct (mem "PhiFunction" fns) eqn:MF; [apply mem_In in MF; contradiction|]. now left.
Qed.
Lemma changed_phis fns ret g g' : ~ In "PhiFunction" fns -> changed (before fns ret) g g' -> phis_fit g -> phis_fit g'.
Proof.
  intros NP H. induction H as [g|g id n b g1 g2 C SP R NS _ IH|g x b b' g2 L ED KL _ IH]; intros F; [exact F|apply IH|apply IH].
  - destruct (split_block_lookup g id n b C SP) as (g3 & R3 & _ & LG & _). rewrite R in R3. injection R3 as <-. pose proof SP as [L _ _ _ _]. intros x bx i Lx I P. rewrite LG in Lx. destruct (String.eqb x (second_id id)).
    { injection Lx as <-. elim (NS i I P). }
    destruct (String.eqb x (first_id id)).
    { injection Lx as <-. change (length (li_ins i) = length (cb_entries b)). apply (F id b i L); [|exact P]. change (In i (firstn (n + 1) (cb_instrs b))) in I. rewrite <- (firstn_skipn (n + 1) (cb_instrs b)). apply in_app_iff. now left. }
    destruct (String.eqb x id); [discriminate|]. destruct (lookup x (cl_blocks g)) as [b0|] eqn:L0; [|discriminate]. cbn [option_map] in Lx. injection Lx as <-.
    assert (Q : cb_instrs (edit id b0) = cb_instrs b0 /\ length (cb_entries (edit id b0)) = length (cb_entries b0)).
    { unfold edit, relist, relink. cbn. rewrite map_length. repeat (match goal with |- context [if ?c then _ else _] => destruct c end); auto. }
    destruct Q as (Q1 & Q2). rewrite Q1 in I. rewrite Q2. exact (F x b0 i L0 I P).
  - intros y by' i Ly I P. cbn [put_block cl_blocks] in Ly. rewrite lookup_dict_set in Ly. destruct (String.eqb_spec x y) as [<-|]; [|exact (F y by' i Ly I P)].
    injection Ly as <-. rewrite (kl_entries _ _ KL). apply (F x b i L); [|exact P]. destruct ED as (_ & _ & _ & ED).
    assert (J : In (Do i) (flat_map (before fns ret) (map Do (cb_instrs b')))) by (apply in_flat_map; exists (Do i); split; [now apply in_map|now apply before_phi]).
    rewrite ED in J. apply in_flat_map in J as (e & J & Q). apply before_phi in Q; auto. subst e. apply in_map_iff in J as (j & [= <-] & J). exact J.
Qed.
Lemma placed_phis ob ob' tags : object_ok ob -> insert_and_split ob = Ok (ob', tags) -> object_phis ob -> phis_match_object ob' /\ NoDup (map fst (ob_functions ob')) /\ forall c g, component ob' c g -> consistent g.
Proof.
  intros OO E F. destruct (insert_and_split_changes ob OO) as (ob2 & tags2 & E2 & _ & NM & _ & H). rewrite E in E2. injection E2 as <- <-.
  assert (HC : forall c g', component ob' c g' -> exists g, component ob c g /\ consistent g' /\ changed (before (map fst (ob_functions ob)) (return_name ob c)) g g' /\ forall x b, lookup x (cl_blocks g') = Some b -> placed ob' tags (return_name ob c) b).
  { intros c g' K'. assert (exists g, component ob c g) as (g & K).
    { destruct c as [f|]; [|exists (ob_main ob); reflexivity]. destruct K' as (k' & L & _). apply lookup_In_key in L. rewrite NM in L. apply key_lookup in L as (k & L). exists (fn_blocks k), k. auto. }
    destruct (H c g K) as (g2 & K2 & C2 & CH & PL). assert (g2 = g') as -> by (destruct c as [f|]; [destruct K' as (k1 & L1 & <-), K2 as (k2 & L2 & <-); congruence|cbn in K', K2; congruence]). eauto. }
  split; [|split; [rewrite NM; apply OO|intros c g' K'; now destruct (HC c g' K') as (g & _ & C & _)]].
  intros c g' K' x b I. destruct (HC c g' K') as (g & K & C & CH & PL). assert (L : lookup x (cl_blocks g') = Some b) by (apply dict_In; [apply C|exact I]). split.
  - intros i. apply (changed_phis _ _ g g' (fun Q => oo_reserved ob OO _ Q ltac:(cbn; tauto)) CH (F c g K) x b i L).
  - intros i Q. rewrite (pl_split _ _ _ _ (PL x b L)) in Q. destruct (rev (cb_instrs b)) as [|j l] eqn:R; [discriminate|]. destruct (mem _ _); [|discriminate]. injection Q as ->. apply in_rev. rewrite R. now left.
Qed.
