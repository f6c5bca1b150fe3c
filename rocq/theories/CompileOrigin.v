(** Where the instructions, conditions and blocks of an object come from, once
    the blocks have been combined and the jumps inserted. *)
From Verif Require Import Base Lexical UtilModel UtilProps UnifyProps LiveModel CfgModel CfgSpec CfgProps CombineProps MergePassProps RemoveProps JumpModel JumpSpec JumpTrace JumpProofs JumpProps CombineModel
  ObjCombineSpec ObjSem ObjSim ObjErase ObjCombine ObjFit.
Open Scope string_scope. Open Scope list_scope.

(** The instructions of [g'] are those of [g], and so are the conditions. *)
Definition comes_from (g g' : clist) : Prop := forall x' b', lookup x' (cl_blocks g') = Some b' ->
  (forall i, In i (cb_instrs b') -> exists x b, lookup x (cl_blocks g) = Some b /\ In i (cb_instrs b))
  /\ (forall v, cb_cond b' = Some v -> exists x b, lookup x (cl_blocks g) = Some b /\ cb_cond b = Some v).
Lemma comes_from_trans g1 g2 g3 : comes_from g1 g2 -> comes_from g2 g3 -> comes_from g1 g3.
Proof.
  intros H1 H2 x b L. destruct (H2 x b L) as (A & B). split.
  - intros i I. destruct (A i I) as (y & by' & Ly & Iy). exact (proj1 (H1 y by' Ly) i Iy).
  - intros v Q. destruct (B v Q) as (y & by' & Ly & Qy). exact (proj2 (H1 y by' Ly) v Qy).
Qed.
Lemma comes_from_refl g : comes_from g g. Proof. intros x b L. split; eauto. Qed.
Lemma merge_origin g a b ba bb g' : consistent g -> mergeable g a b ba bb -> merge_blocks a b g = Ok g' -> comes_from g g'.
Proof.
  intros C M E x bx L. destruct (merge_lookup g a b ba bb C M) as (g2 & E2 & _ & LG & _). rewrite E in E2. injection E2 as <-. pose proof M as [LA LB _ _ _ _ _ _].
  rewrite LG in L. destruct (String.eqb_spec x a) as [->|].
  - injection L as <-. split; [intros i I; change (In i (cb_instrs ba ++ cb_instrs bb)) in I; apply in_app_iff in I as [I|I]; eauto|]. intros v Q. change (cb_cond bb = Some v) in Q. eauto.
  - destruct (String.eqb x b); [discriminate|]. destruct (lookup x (cl_blocks g)) as [b0|] eqn:L0; [|discriminate]. cbn [option_map] in L. injection L as <-. split; [intros i I; change (In i (cb_instrs b0)) in I; eauto|intros v Q; change (cb_cond b0 = Some v) in Q; eauto].
Qed.
Lemma merges_origin g g' : merges g g' -> comes_from g g'.
Proof. induction 1 as [|a b ba bb g1 g2 _ IH C T M CN E]; [apply comes_from_refl|]. eapply comes_from_trans; [exact IH|]. eapply merge_origin; eauto. Qed.
Lemma removed_origin g g' : consistent g -> remove_blocks_block_list g = Ok g' -> comes_from g g'.
Proof.
  intros C E x b L. destruct (c_start g C) as (s & S & I). destruct (remove_blocks_reachable g s C S) as (g2 & E2 & Q1 & LG & Q2). assert (QG : g2 = g') by congruence. rewrite QG in LG. pose proof (proj1 (proj1 (LG x b) L)). split; eauto.
Qed.
Lemma combine_origin so ob ob' : combinable ob -> combine_remove_object so ob = Ok ob' ->
  (forall c g', component ob' c g' -> exists g, component ob c g /\ comes_from g g') /\ map fst (ob_functions ob') = map fst (ob_functions ob)
  /\ forall f k', lookup f (ob_functions ob') = Some k' -> exists k, lookup f (ob_functions ob) = Some k /\ fn_args k' = fn_args k.
Proof.
  intros [ND C T SF NC TE JP] E.
  assert (K : forall c g, component ob c g -> exists g', combine_remove_block_list so (map fst (ob_functions ob)) g = Ok g' /\ comes_from g g').
  { intros c g B. unfold combine_remove_block_list. destruct (combine_blocks_merges so (map fst (ob_functions ob)) g (C c g B) (T c g B) (SF c g B) (NC c g B)) as (g1 & E1 & C1 & T1 & _ & _ & MS). rewrite E1. cbn [bind].
    destruct (c_start g1 C1) as (s & S & _). destruct (remove_blocks_reachable g1 s C1 S) as (g2 & E2 & _). exists g2. split; [exact E2|]. eapply comes_from_trans; [exact (merges_origin g g1 MS)|exact (removed_origin g1 g2 C1 E2)]. }
  destruct (combine_object_ok so ob ND) as (ob2 & E2 & NM & BL & AR); [intros c g B; apply blocks_component in B; destruct (K c g B) as (g' & Q & _); eauto|]. rewrite E in E2. injection E2 as <-. split; [|split; [exact NM|]].
  - intros c g' B'. apply blocks_component in B'. assert (N : blocks_at ob c <> None).
    { apply comp_names_In. unfold comp_names. rewrite <- NM. apply comp_names_In. congruence. }
    destruct (blocks_at ob c) as [g|] eqn:B; [|congruence]. destruct (BL c g B) as (g2 & E2 & B2). rewrite B' in B2. injection B2 as <-. apply blocks_component in B. destruct (K c g B) as (g3 & E3 & F3). rewrite E2 in E3. injection E3 as <-. eauto.
  - intros f k' L. specialize (AR f). rewrite L in AR. destruct (lookup f (ob_functions ob)) as [k|]; [|discriminate]. cbn in AR. injection AR as AR. eauto.
Qed.

(** After the insertion of jumps this holds of what the instructions were before. *)
Section Changed.
Variable E : event -> list event.
Lemma edit_same id b : cb_instrs (edit id b) = cb_instrs b /\ cb_cond (edit id b) = cb_cond b /\ cb_type (edit id b) = cb_type b.
Proof. unfold edit, relist, relink. cbn. auto. Qed.
Lemma changed_origin g g' : changed E g g' -> forall x' b', lookup x' (cl_blocks g') = Some b' ->
  (forall i e, In i (cb_instrs b') -> In e (E (Do i)) -> exists x b j, lookup x (cl_blocks g) = Some b /\ In j (cb_instrs b) /\ In e (E (Do j)))
  /\ (forall v, cb_cond b' = Some v -> exists x b, lookup x (cl_blocks g) = Some b /\ cb_cond b = Some v).
Proof.
  intros H. induction H as [g|g id n b g1 g2 C SP R NS _ IH|g x b b' g2 L ED KL _ IH]; intros x' b2 L'.
  - split; [intros i e I J; exists x', b2, i; auto|eauto].
  - destruct (split_block_lookup g id n b C SP) as (g3 & R3 & _ & LG & _). rewrite R in R3. injection R3 as <-. pose proof SP as [L _ _ _ _].
    assert (H1 : forall x bx, lookup x (cl_blocks g1) = Some bx -> exists y by', lookup y (cl_blocks g) = Some by' /\ incl (cb_instrs bx) (cb_instrs by') /\ (cb_cond bx = None \/ cb_cond bx = cb_cond by')).
    { intros x bx Lx. rewrite LG in Lx. destruct (String.eqb x (second_id id)).
      { injection Lx as <-. exists id, b. split; [exact L|]. split; [intros i I; change (In i (skipn (n + 1) (cb_instrs b))) in I; rewrite <- (firstn_skipn (n + 1)); apply in_app_iff; now right|now right]. }
      destruct (String.eqb x (first_id id)).
      { injection Lx as <-. exists id, b. split; [exact L|]. split; [intros i I; change (In i (firstn (n + 1) (cb_instrs b))) in I; rewrite <- (firstn_skipn (n + 1)); apply in_app_iff; now left|now left]. }
      destruct (String.eqb x id); [discriminate|]. destruct (lookup x (cl_blocks g)) as [b0|] eqn:L0; [|discriminate]. cbn [option_map] in Lx. injection Lx as <-. destruct (edit_same id b0) as (Q1 & Q2 & _).
      exists x, b0. split; [exact L0|]. rewrite Q1, Q2. split; [apply incl_refl|now right]. }
    destruct (IH x' b2 L') as (A & B). split.
    + intros i e I J. destruct (A i e I J) as (y & by' & j & Ly & Ij & Ie). destruct (H1 y by' Ly) as (z & bz & Lz & IC & _). exists z, bz, j. auto.
    + intros v Q. destruct (B v Q) as (y & by' & Ly & Qy). destruct (H1 y by' Ly) as (z & bz & Lz & _ & [N|N]); [congruence|]. exists z, bz. split; congruence.
  - assert (H1 : forall y by', lookup y (cl_blocks (put_block x b' g)) = Some by' -> (y = x /\ by' = b') \/ lookup y (cl_blocks g) = Some by').
    { intros y by' Ly. cbn [put_block cl_blocks] in Ly. rewrite lookup_dict_set in Ly. destruct (String.eqb_spec x y) as [<-|]; [left; split; congruence|now right]. }
    destruct (IH x' b2 L') as (A & B). destruct ED as (ED1 & ED2 & ED3 & ED). split.
    + intros i e I J. destruct (A i e I J) as (y & by' & j & Ly & Ij & Ie). destruct (H1 y by' Ly) as [(-> & ->)|L0]; [|eauto 8].
      assert (K : In e (flat_map E (map Do (cb_instrs b')))) by (apply in_flat_map; exists (Do j); split; [now apply in_map|exact Ie]).
      rewrite ED in K. apply in_flat_map in K as (e2 & K1 & K2). apply in_map_iff in K1 as (j2 & <- & K1). exists x, b, j2. auto.
    + intros v Q. destruct (B v Q) as (y & by' & Ly & Qy). destruct (H1 y by' Ly) as [(-> & ->)|L0]; [|eauto]. exists x, b. split; [exact L|congruence].
Qed.
Lemma changed_returns g g' : changed E g g' -> (exists x, has_type ["FunctionReturn"] g x) <-> (exists x, has_type ["FunctionReturn"] g' x).
Proof.
  intros H. induction H as [g|g id n b g1 g2 C SP R NS _ IH|g x b b' g2 L ED KL _ IH]; [reflexivity|rewrite <- IH|rewrite <- IH].
  - destruct (split_block_lookup g id n b C SP) as (g3 & R3 & _ & LG & _). rewrite R in R3. injection R3 as <-. pose proof SP as [L _ _ NF NS2]. assert (F2 : first_id id <> second_id id) by (intros Q; unfold first_id, second_id in Q; clear -Q; induction id as [|ch s IHs]; [discriminate|injection Q as Q; auto]). split.
    + intros (x & bx & Lx & T). destruct (string_dec x id) as [->|NX].
      * exists (second_id id), (second_half id n b). rewrite LG, String.eqb_refl. split; [reflexivity|]. change (In (cb_type b) ["FunctionReturn"]). congruence.
      * exists x, (edit id bx). rewrite LG, Lx. destruct (String.eqb_spec x (second_id id)) as [->|_]; [elim NS2; eapply lookup_In_key; eauto|]. destruct (String.eqb_spec x (first_id id)) as [->|_]; [elim NF; eapply lookup_In_key; eauto|].
        destruct (String.eqb_spec x id); [contradiction|]. split; [reflexivity|]. destruct (edit_same id bx) as (_ & _ & ->). exact T.
    + intros (x & bx & Lx & T). rewrite LG in Lx. destruct (String.eqb x (second_id id)).
      { injection Lx as <-. exists id, b. auto. }
      destruct (String.eqb x (first_id id)); [injection Lx as <-; destruct T as [T|[]]; discriminate|]. destruct (String.eqb x id); [discriminate|]. destruct (lookup x (cl_blocks g)) as [b0|] eqn:L0; [|discriminate]. injection Lx as <-.
      exists x, b0. split; [exact L0|]. destruct (edit_same id b0) as (_ & _ & Q). congruence.
  - split; intros (y & by' & Ly & T).
    + destruct (string_dec y x) as [->|N].
      * exists x, b'. split; [cbn [put_block cl_blocks]; rewrite lookup_dict_set, String.eqb_refl; reflexivity|]. rewrite (kl_type _ _ KL). congruence.
      * exists y, by'. split; [cbn [put_block cl_blocks]; rewrite lookup_dict_set; destruct (String.eqb_spec x y); [congruence|exact Ly]|exact T].
    + cbn [put_block cl_blocks] in Ly. rewrite lookup_dict_set in Ly. destruct (String.eqb_spec x y) as [<-|]; [|exists y, by'; auto]. injection Ly as <-. exists x, b. rewrite <- (kl_type _ _ KL). auto.
Qed.
Lemma changed_names g g' : changed E g g' -> forall y, In y (map fst (cl_blocks g')) -> exists x, In x (map fst (cl_blocks g)) /\ spread x y.
Proof.
  intros H. induction H as [g|g id n b g1 g2 C SP R NS _ IH|g x b b' g2 L ED KL _ IH]; intros y I.
  - exists y. split; [exact I|apply spread_refl].
  - destruct (IH y I) as (x & Ix & S). destruct (split_block_lookup g id n b C SP) as (g3 & R3 & _ & LG & _). rewrite R in R3. injection R3 as <-. pose proof SP as [L _ _ _ _]. apply key_lookup in Ix as (bx & Lx). rewrite LG in Lx.
    destruct (String.eqb_spec x (second_id id)) as [->|_]; [exists id; split; [eapply lookup_In_key; eauto|eapply spread_trans; [apply spread_second|exact S]]|].
    destruct (String.eqb_spec x (first_id id)) as [->|_]; [exists id; split; [eapply lookup_In_key; eauto|eapply spread_trans; [apply spread_first|exact S]]|].
    destruct (String.eqb x id); [discriminate|]. destruct (lookup x (cl_blocks g)) as [b0|] eqn:L0; [|discriminate]. exists x. split; [eapply lookup_In_key; eauto|exact S].
  - destruct (IH y I) as (z & Iz & S). apply key_lookup in Iz as (bz & Lz). cbn [put_block cl_blocks] in Lz. rewrite lookup_dict_set in Lz. exists z. split; [|exact S]. destruct (String.eqb_spec x z) as [<-|]; eapply lookup_In_key; eauto.
Qed.
End Changed.
