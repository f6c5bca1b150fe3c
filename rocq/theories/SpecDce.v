(** Removal of the unused instructions, and the soundness of the whole
    construction. *)
From Verif Require Import Base Lexical SymExecModel AsmModel MachineSpec FootprintSpec LexicalProofs
  CheckerProofs DepsModel SpecModel SpecSem SpecProofs SpecBuild SpecSound.
Open Scope string_scope. Open Scope list_scope.

(* ---------------------------------------------------------------- *)
(** Depth-first search. *)
Lemma for_each_inv {A S} (P : S -> Prop) (f : S -> A -> result S) xs : forall s s',
  P s -> (forall s x s', In x xs -> P s -> f s x = Ok s' -> P s') -> for_each f xs s = Ok s' -> P s'.
Proof.
  induction xs as [|x xs IH]; intros s s' H H' E; cbn [for_each] in E; [injection E as <-; exact H|].
  apply bind_ok in E as (s1 & E1 & E). eapply IH; [| |exact E].
  - eapply H'; [left; reflexivity|exact H|exact E1].
  - intros s2 y s3 Hy. apply H'. simpl; auto.
Qed.

Definition closes (succ : string -> list string) (seen seen' : list string) : Prop :=
  (forall n, In n seen -> In n seen') /\
  (forall n, In n seen' -> In n seen \/ forall m, In m (succ n) -> In m seen').

Lemma closes_refl succ s : closes succ s s.
Proof. split; auto. Qed.
Lemma closes_trans succ a b c : closes succ a b -> closes succ b c -> closes succ a c.
Proof.
  intros [A1 A2] [B1 B2]. split; auto. intros n Hn. destruct (B2 n Hn) as [Q|Q]; auto.
  destruct (A2 n Q) as [R|R]; auto.
Qed.

Lemma dfs_list fuel succ : (forall node seen seen', dfs fuel succ node seen = Ok seen' -> closes succ seen seen' /\ In node seen') ->
  forall ns seen seen', for_each (fun s n => dfs fuel succ n s) ns seen = Ok seen' ->
  closes succ seen seen' /\ forall n, In n ns -> In n seen'.
Proof.
  intros D. induction ns as [|n ns IH]; intros seen seen' H; cbn [for_each] in H.
  - injection H as <-. split; [apply closes_refl|intros n []].
  - apply bind_ok in H as (s1 & H1 & H). apply D in H1 as [C1 I1]. apply IH in H as [C2 I2].
    split; [eapply closes_trans; eauto|]. intros m [<-|Hm]; auto. apply C2. exact I1.
Qed.

Lemma dfs_closes fuel succ : forall node seen seen', dfs fuel succ node seen = Ok seen' ->
  closes succ seen seen' /\ In node seen'.
Proof.
  induction fuel as [|fuel IH]; intros node seen seen' H; cbn [dfs] in H; [discriminate|].
  destruct (mem node seen) eqn:M.
  - injection H as <-. split; [apply closes_refl|apply mem_In; exact M].
  - destruct (dfs_list fuel succ IH _ _ _ H) as [[C1 C2] C3]. split; [split|].
    + intros n Hn. apply C1. simpl; auto.
    + intros n Hn. destruct (C2 n Hn) as [[<-|Q]|Q]; auto.
    + apply C1. simpl; auto.
Qed.

(** The search terminates within its fuel. *)
Lemma incl_count (a u : list string) : NoDup u -> (forall x, In x u -> In x a) -> length u <= length a.
Proof. intros N H. apply NoDup_incl_length; auto. Qed.

Lemma dfs_terminates succ (nodes : list string) : (forall n m, In n nodes -> In m (succ n) -> In m nodes) ->
  forall fuel node seen, In node nodes -> NoDup seen -> (forall n, In n seen -> In n nodes) ->
  length nodes < fuel + length seen ->
  exists seen', dfs fuel succ node seen = Ok seen' /\ NoDup seen' /\ (forall n, In n seen' -> In n nodes) /\ length seen <= length seen'.
Proof.
  intros Hs. induction fuel as [|fuel IH]; intros node seen Hn Nd Hi L.
  - pose proof (incl_count nodes seen Nd Hi). lia.
  - cbn [dfs]. destruct (mem node seen) eqn:M; [exists seen; auto|]. apply mem_false in M.
    assert (G : forall ns s, (forall n, In n ns -> In n nodes) -> NoDup s -> (forall n, In n s -> In n nodes) ->
      length nodes < fuel + length s ->
      exists s', for_each (fun s n => dfs fuel succ n s) ns s = Ok s' /\ NoDup s' /\ (forall n, In n s' -> In n nodes) /\ length s <= length s').
    { induction ns as [|n ns IHn]; intros s Hns Ns Is Ls; cbn [for_each]; [exists s; auto|].
      destruct (IH n s (Hns n (or_introl eq_refl)) Ns Is Ls) as (s1 & E1 & N1 & I1 & L1). rewrite E1. cbn [bind].
      destruct (IHn s1) as (s2 & E2 & N2 & I2 & L2); auto; [intros; apply Hns; simpl; auto|lia|].
      exists s2. repeat split; auto. lia. }
    destruct (G (succ node) (node :: seen)) as (s' & E & N & I & L').
    + intros n Hn'. eapply Hs; eauto.
    + constructor; auto.
    + intros n [<-|Q]; auto.
    + simpl. lia.
    + exists s'. repeat split; auto. simpl in L'. lia.
Qed.

Lemma var2id_In U x id : var2id U x = Some id -> exists i, In i U /\ i_id i = id /\ In x (i_outpt i).
Proof.
  unfold var2id. destruct (find _ _) as [i|] eqn:F; [|discriminate]. simpl. intros [= <-].
  apply find_some in F as [F1 F2]. exists i. split; [apply in_rev; exact F1|]. split; [reflexivity|apply mem_In; exact F2].
Qed.
Lemma var2id_some U x : In x (outputs U) -> exists id, var2id U x = Some id.
Proof.
  intros H. unfold var2id. destruct (find (fun i => mem x (i_outpt i)) (rev U)) as [i|] eqn:F; [simpl; eauto|exfalso].
  unfold outputs in H. apply in_flat_map in H as (i & Hi & Hx).
  apply (find_none _ _ F i) in Hi || (rewrite in_rev in Hi; apply (find_none _ _ F i) in Hi).
  apply mem_false in Hi. contradiction.
Qed.
Lemma In_filter_map {A B} (f : A -> option B) l b : In b (filter_map f l) <-> exists a, In a l /\ f a = Some b.
Proof.
  unfold filter_map. rewrite in_flat_map. split; intros (a & Ha & H); exists a; split; auto.
  - destruct (f a); simpl in H; [destruct H as [->|[]]; reflexivity|destruct H].
  - rewrite H. simpl; auto.
Qed.
Lemma successors_In U id m : In m (successors U id) <->
  exists i x, In i U /\ i_id i = id /\ In x (i_inpt i) /\ var2id U x = Some m.
Proof.
  unfold successors. rewrite in_flat_map. split.
  - intros (i & Hi & H). destruct (String.eqb_spec (i_id i) id) as [E|]; [|destruct H].
    apply In_filter_map in H as (x & Hx & Q). exists i, x. auto.
  - intros (i & x & Hi & E & Hx & Q). exists i. split; auto. rewrite E, String.eqb_refl. apply In_filter_map. eauto.
Qed.

(** The unused instructions can always be computed. *)
Lemma detect_total U final : exists r, detect_unused_instructions U final = Ok r.
Proof.
  unfold detect_unused_instructions, reachable_ids.
  assert (H : exists s, for_each (fun s n => dfs (S (S (length U))) (successors U) n s) (roots U final) [] = Ok s).
  { assert (R : forall n, In n (roots U final) -> In n (map i_id U)).
    { intros n. unfold roots. rewrite in_app_iff, In_filter_map. intros [(x & _ & H)|H].
      - apply var2id_In in H as (i & Hi & <- & _). apply in_map. exact Hi.
      - apply in_map_iff in H as (i & <- & Hi). apply filter_In in Hi as [Hi _]. apply in_map. exact Hi. }
    assert (Sx : forall n m, In n (map i_id U) -> In m (successors U n) -> In m (map i_id U)).
    { intros n m _ H. apply successors_In in H as (i & x & _ & _ & _ & H). apply var2id_In in H as (j & Hj & <- & _).
      apply in_map. exact Hj. }
    assert (G : forall ns s, (forall n, In n ns -> In n (map i_id U)) -> NoDup s -> (forall n, In n s -> In n (map i_id U)) ->
      exists s', for_each (fun s n => dfs (S (S (length U))) (successors U) n s) ns s = Ok s').
    { induction ns as [|n ns IH]; intros s Hn Ns Is; [exists s; reflexivity|]. cbn [for_each].
      destruct (dfs_terminates (successors U) (map i_id U) Sx (S (S (length U))) n s) as (s1 & E1 & N1 & I1 & _); auto.
      - apply Hn. simpl; auto.
      - rewrite map_length. lia.
      - rewrite E1. cbn [bind]. apply IH; auto. intros; apply Hn; simpl; auto. }
    apply G; auto; [constructor|intros n []]. }
  destruct H as (s & ->). cbn [bind]. eauto.
Qed.

(** What is kept is closed: it contains the producers of everything it uses,
    of the target, and every instruction with effects. *)
Record kept_spec (U : list instr) (tgt : list string) (keep : instr -> bool) : Prop := {
  ks_storage : forall i, In i U -> i_storage i = true -> keep i = true;
  ks_tgt : forall i x, In i U -> In x (i_outpt i) -> In x tgt -> keep i = true;
  ks_closed : forall i j x, In i U -> In j U -> keep i = true -> In x (i_inpt i) -> In x (i_outpt j) -> keep j = true
}.

Lemma NoDup_outputs_unique U i j x : NoDup (outputs U) -> In i U -> In j U -> In x (i_outpt i) -> In x (i_outpt j) -> i = j.
Proof.
  intros N Hi Hj Xi Xj. apply In_nth_error in Hi as (m & Hm). apply In_nth_error in Hj as (n & Hn).
  assert (G : forall m n i j, m < n -> nth_error U m = Some i -> nth_error U n = Some j -> In x (i_outpt i) -> In x (i_outpt j) -> False).
  { clear -N. intros m n i j L Hm Hn Xi Xj. apply nth_error_split in Hm as (a & b & -> & <-).
    rewrite nth_error_app2 in Hn by lia. destruct (n - length a) as [|k] eqn:E; [lia|]. simpl in Hn.
    rewrite outputs_app in N. apply NoDup_app_r in N. change (i :: b) with ([i] ++ b) in N. rewrite outputs_app in N.
    eapply NoDup_app_disj; [exact N| |]; unfold outputs; apply in_flat_map.
    - exists i. split; [simpl; auto|exact Xi].
    - exists j. split; [eapply nth_error_In; eauto|exact Xj]. }
  destruct (lt_eq_lt_dec m n) as [[L|E]|L].
  - exfalso. eapply G; eauto.
  - subst. congruence.
  - exfalso. eapply G; eauto.
Qed.

Lemma detect_kept U tgt unused : NoDup (map i_id U) -> NoDup (outputs U) ->
  detect_unused_instructions U tgt = Ok unused ->
  kept_spec U tgt (fun i => negb (mem (i_id i) unused)).
Proof.
  intros Ni No H. unfold detect_unused_instructions in H. apply bind_ok in H as (r & Hr & H). injection H as <-.
  unfold reachable_ids in Hr. apply dfs_list in Hr as [[_ C] R]; [|apply dfs_closes].
  assert (K : forall i, In i U -> In (i_id i) r -> negb (mem (i_id i) (filter (fun id => negb (mem id r)) (map i_id U))) = true).
  { intros i Hi Hr. apply negb_true_iff, mem_false. intros Q. apply filter_In in Q as [_ Q].
    apply negb_true_iff, mem_false in Q. contradiction. }
  assert (K' : forall i, In i U -> negb (mem (i_id i) (filter (fun id => negb (mem id r)) (map i_id U))) = true -> In (i_id i) r).
  { intros i Hi Q. apply negb_true_iff, mem_false in Q. destruct (mem (i_id i) r) eqn:M; [apply mem_In; exact M|].
    exfalso. apply Q. apply filter_In. split; [apply in_map; exact Hi|]. rewrite M. reflexivity. }
  assert (P : forall i x, In i U -> In x (i_outpt i) -> var2id U x = Some (i_id i)).
  { intros i x Hi Hx. destruct (var2id_some U x) as (id & E); [unfold outputs; apply in_flat_map; eauto|].
    rewrite E. apply var2id_In in E as (j & Hj & <- & Xj). f_equal. f_equal. eapply NoDup_outputs_unique; eauto. }
  constructor.
  - intros i Hi Q. apply K; auto. apply R. unfold roots. apply in_app_iff. right. apply in_map. apply filter_In. auto.
  - intros i x Hi Hx Q. apply K; auto. apply R. unfold roots. apply in_app_iff. left. apply In_filter_map. eauto.
  - intros i j x Hi Hj Q Xi Xj. apply K; auto. apply K' in Q; auto. destruct (C (i_id i) Q) as [[]|Q'].
    apply Q'. apply successors_In. exists i, x. auto.
Qed.

Section Dce.
Context {V Loc LV : Type}.
Variable sem : semantics V Loc LV.

(** Dropping unused instructions without effects changes nothing but the
    variables they define. *)
Lemma dce_exec U keep : NoDup (outputs U) ->
  (forall i j x, In i U -> In j U -> keep i = true -> In x (i_inpt i) -> In x (i_outpt j) -> keep j = true) ->
  (forall i, In i U -> keep i = false -> forall args w, snd (op_denote sem i args w) = w) ->
  forall e w,
  snd (exec_prog sem (filter keep U) (e, w)) = snd (exec_prog sem U (e, w))
  /\ forall x, (forall i, In i U -> In x (i_outpt i) -> keep i = true) ->
       fst (exec_prog sem (filter keep U) (e, w)) x = fst (exec_prog sem U (e, w)) x.
Proof.
  intros N Hc Hp.
  assert (G : forall l, (forall i, In i l -> In i U) -> forall e e' w,
    (forall x, (forall i, In i U -> In x (i_outpt i) -> keep i = true) -> e' x = e x) ->
    snd (exec_prog sem (filter keep l) (e', w)) = snd (exec_prog sem l (e, w))
    /\ forall x, (forall i, In i U -> In x (i_outpt i) -> keep i = true) ->
       fst (exec_prog sem (filter keep l) (e', w)) x = fst (exec_prog sem l (e, w)) x).
  { induction l as [|i l IH]; intros Hl e e' w Q; [cbn; auto|].
    assert (Hi : In i U) by (apply Hl; simpl; auto).
    change (i :: l) with ([i] ++ l) at 2 4. rewrite exec_prog_app.
    change (exec_prog sem [i] (e, w)) with (exec_op sem i (e, w)). unfold exec_op.
    cbn [filter]. destruct (keep i) eqn:K.
    - change (i :: filter keep l) with ([i] ++ filter keep l). rewrite exec_prog_app.
      change (exec_prog sem [i] (e', w)) with (exec_op sem i (e', w)). unfold exec_op.
      assert (Ea : map e' (i_inpt i) = map e (i_inpt i)).
      { apply map_ext_in. intros x Hx. apply Q. intros j Hj Xj. exact (Hc i j x Hi Hj K Hx Xj). }
      rewrite Ea. destruct (op_denote sem i (map e (i_inpt i)) w) as [outs w'].
      apply IH; [intros; apply Hl; simpl; auto|]. intros x Hx. apply bind_vars_agree. auto.
    - specialize (Hp i Hi K (map e (i_inpt i)) w).
      destruct (op_denote sem i (map e (i_inpt i)) w) as [outs w']. simpl in Hp. subst w'.
      apply IH; [intros; apply Hl; simpl; auto|]. intros x Hx. rewrite Q by exact Hx.
      symmetry. apply bind_vars_other. intros Xi. rewrite (Hx i Hi Xi) in K. discriminate. }
  intros e w. apply G; auto.
Qed.
End Dce.

(* ---------------------------------------------------------------- *)
(** Well-formedness of the resulting specification. *)
Lemma NoDup_ids_unique U : forall acc, NoDup (map i_id U) -> (forall x, In x acc -> ~ In x (map i_id U)) ->
  ids_unique_from acc U = true.
Proof.
  induction U as [|i U IH]; simpl; intros acc N H; [reflexivity|]. inversion N as [|? ? N1 N2]. subst.
  destruct (mem (i_id i) acc) eqn:M; [apply mem_In in M; exfalso; apply (H _ M); auto|].
  apply IH; auto. intros x [<-|Hx]; auto. intros Q. apply (H x Hx). auto.
Qed.

Lemma add_vars_ok l : forall acc, NoDup l -> (forall x, In x acc -> ~ In x l) ->
  exists acc', add_vars acc l = Some acc' /\ forall x, In x acc' <-> In x acc \/ In x l.
Proof.
  induction l as [|v l IH]; simpl; intros acc N H; [exists acc; split; [reflexivity|tauto]|].
  inversion N as [|? ? N1 N2]. subst.
  destruct (mem v acc) eqn:M; [apply mem_In in M; exfalso; apply (H _ M); auto|].
  destruct (IH (v :: acc) N2) as (acc' & E & Q).
  - intros x [<-|Hx]; auto. intros Q. apply (H x Hx). auto.
  - exists acc'. split; [exact E|]. intros x. rewrite Q. simpl. tauto.
Qed.

Lemma NoDup_vars_unique U : forall acc, NoDup (outputs U) -> (forall x, In x acc -> ~ In x (outputs U)) ->
  vars_unique_from acc U = true.
Proof.
  induction U as [|i U IH]; simpl; intros acc N H; [reflexivity|].
  unfold outputs in N, H. simpl in N, H.
  destruct (add_vars_ok (i_outpt i) acc) as (acc' & E & Q).
  - eapply NoDup_app_l; eauto.
  - intros x Hx Q. apply (H x Hx). apply in_app_iff. auto.
  - rewrite E. apply IH; [eapply NoDup_app_r; eauto|]. intros x Hx Qx. apply Q in Hx as [Hx|Hx].
    + apply (H x Hx). apply in_app_iff. auto.
    + eapply NoDup_app_disj; eauto.
Qed.

Lemma NoDup_map_filter {A B} (g : A -> B) (f : A -> bool) l : NoDup (map g l) -> NoDup (map g (filter f l)).
Proof.
  induction l as [|a l IH]; simpl; intros N; [constructor|]. inversion N as [|? ? N1 N2]. subst.
  destruct (f a); simpl; auto. constructor; auto. intros Q. apply N1. apply in_map_iff in Q as (b & <- & Hb).
  apply filter_In in Hb as [Hb _]. apply in_map. exact Hb.
Qed.

Lemma outputs_filter f U x : In x (outputs (filter f U)) -> In x (outputs U).
Proof.
  unfold outputs. rewrite !in_flat_map. intros (i & Hi & Hx). apply filter_In in Hi as [Hi _]. eauto.
Qed.

Lemma NoDup_outputs_filter f U : NoDup (outputs U) -> NoDup (outputs (filter f U)).
Proof.
  induction U as [|i U IH]; simpl; intros N; [constructor|]. unfold outputs in N. simpl in N.
  destruct (f i); [|apply IH; eapply NoDup_app_r; eauto]. unfold outputs. simpl.
  apply NoDup_app_intro; [eapply NoDup_app_l; eauto|apply IH; eapply NoDup_app_r; eauto|].
  intros x H1 H2. eapply NoDup_app_disj; [exact N|exact H1|]. apply (outputs_filter f U x). exact H2.
Qed.

Lemma defs_filter f U : defs_before_uses U = true -> defs_before_uses (filter f U) = true.
Proof.
  induction U as [|i U IH]; simpl; [auto|]. rewrite andb_true_iff. intros [H1 H2].
  destruct (f i); [|apply IH; exact H2]. simpl. rewrite (IH H2), andb_true_r.
  rewrite forallb_forall in *. intros x Hx. specialize (H1 x Hx). apply negb_true_iff in H1. apply negb_true_iff.
  apply mem_false. apply mem_false in H1. intros Q. apply H1. unfold outputs in *. simpl in *. rewrite in_app_iff in *.
  destruct Q as [Q|Q]; auto. right. apply (outputs_filter f U x). exact Q.
Qed.

Lemma name_ok_ids i k : op_name_ok (i_disasm i) = true -> i_id i = id_of (i_disasm i) k -> name_ok (i_id i) = true.
Proof. intros H ->. apply op_name_ok_id. exact H. Qed.

Lemma wf_of_sinv done rest extra st f initial tgt deps :
  sinv done rest extra st -> (forall x, In x initial -> ~ In x (outputs (b_ui st))) ->
  wf_sfs {| s_src := initial; s_tgt := tgt; s_instrs := filter f (b_ui st); s_deps := deps |} = true.
Proof.
  intros S Hi. unfold wf_sfs. cbn [s_src s_instrs]. rewrite !andb_true_iff. repeat split.
  - apply NoDup_ids_unique; [apply NoDup_map_filter; apply S|intros x []].
  - apply NoDup_vars_unique; [apply NoDup_outputs_filter; apply S|intros x []].
  - apply defs_filter. apply S.
  - apply forallb_forall. intros x Hx. apply negb_true_iff, mem_false. intros Q. apply outputs_filter in Q. exact (Hi x Hx Q).
  - apply forallb_forall. intros i Hi'. apply filter_In in Hi' as [Hi' _].
    destruct (si_ok _ _ _ _ S i Hi') as [Q1 Q2]. destruct (si_ids _ _ _ _ S i Hi') as (k & _ & E).
    rewrite (name_ok_ids i k Q1 E), (op_name_ok_name _ Q1), Q2. simpl. rewrite andb_true_r.
    unfold op_name_ok in Q1. rewrite !andb_true_iff in Q1. tauto.
Qed.

(** An operation not marked as having effects leaves the world alone. *)
Definition effects_marked {V Loc LV} (sem : semantics V Loc LV) (instrs : list cins) : Prop :=
  forall c, In c instrs -> mem (lower (upper (c_op c))) memory_storage_instructions = false ->
  forall args w, snd (cfg_denote sem c args w) = w.

Definition layout_name (v : string) : Prop := user_name v \/ lit_ok v \/ v = "bottom".

Lemma replace_aliasing_id alias i : (forall x y, In (x, y) alias -> x = y \/ (~ In x (i_inpt i) /\ ~ In x (i_outpt i))) ->
  replace_aliasing alias i = i.
Proof.
  intros H. unfold replace_aliasing, with_inpt, with_outpt. destruct i as [a b inp out c d e]. simpl in *.
  assert (G : forall l, (l = inp \/ l = out) -> map (fun x => dict_get_default x alias x) l = l).
  { intros l Hl. rewrite <- (map_id l) at 2. apply map_ext_in. intros x Hx. unfold dict_get_default.
    destruct (dict_get x alias) as [y|] eqn:E; [|reflexivity]. apply dict_get_In in E.
    destruct (H x y E) as [->|[Q1 Q2]]; [reflexivity|]. destruct Hl; subst; contradiction. }
  rewrite (G inp), (G out) by auto. reflexivity.
Qed.

(** The construction as a whole.  Besides well-formedness and the values, it
    exposes the intermediate list [U] and which of its elements are kept. *)
Theorem build_sequence_sound instrs initial split final s pos unused :
  ssa_block instrs initial ->
  (forall v, In v (stack_before_split split final) -> layout_name v) ->
  build_spec_for_sequence instrs split initial final = Ok (s, pos, unused) ->
  s_src s = initial /\ wf_sfs s = true /\
  forall V Loc LV (sem : semantics V Loc LV), effects_marked sem instrs ->
  forall e0 w0, let r := exec_cfg sem instrs (e0, w0) in let r' := exec_prog sem (s_instrs s) (e0, w0) in
  snd r' = snd r
  /\ Forall2 (fun v x => v <> "bottom" -> fst r' x = aval sem (fst r) v) (stack_before_split split final) (s_tgt s).
Proof.
  intros B Hf H. unfold build_spec_for_sequence in H. set (fin := stack_before_split split final) in *.
  apply bind_ok in H as (st & H1 & H). apply bind_ok in H as (st2 & H2 & H).
  apply bind_ok in H as (un & H3 & H). injection H as <- <- <-. cbn [s_src s_tgt s_instrs].
  destruct (build_loop_spec instrs initial B instrs [] init_bstate 0 st eq_refl (sinv_init _ _) H1) as (S1 & O1 & A1).
  { intros i []. }
  destruct (const_entries_spec fin []) as (C1 & C2 & _ & C4 & C5); [constructor|intros p []|].
  cbv zeta in *.
  assert (L0 : lit_ok "0x00") by (split; [reflexivity|exists 0%Z; split; [reflexivity|lia]]).
  destruct (add_entries_spec instrs (const_entries [] fin) [] st st2 S1 C1) as (extra & S2 & E2 & _ & X2 & O2 & A2); auto.
  { intros p Hp. destruct (C5 p Hp) as [[]|[Q1 Q2]]. split; [exact Q2|]. split; [|intros []].
    rewrite (C2 p Hp). unfold entry_of. cbn [fst snd]. destruct (String.eqb_spec (fst p) "bottom") as [E|N]; [exact L0|].
    destruct (Hf _ Q1) as [U|[L|U]]; [|exact L|contradiction].
    destruct Q2 as [Q2|Q2]; [contradiction|]. destruct U as [U _]. congruence. }
  assert (O := O2 O1). clear O2 O1.
  assert (K := detect_kept _ _ _ (si_idnd _ _ _ _ S2) (si_nodup _ _ _ _ S2) H3).
  assert (RA : map (replace_aliasing (b_alias st2)) (filter (fun i => negb (mem (i_id i) un)) (b_ui st2))
     = filter (fun i => negb (mem (i_id i) un)) (b_ui st2)).
  { rewrite <- (map_id (filter _ _)) at 2. apply map_ext_in. intros i Hi. apply filter_In in Hi as [Hi _].
    apply replace_aliasing_id. intros x y Q. destruct (si_alias _ _ _ _ S2 x y Q) as [E|[N1 N2]]; [left; exact E|].
    right. split; [apply N2; exact Hi|]. intros Q'. apply N1. unfold outputs. apply in_flat_map. eauto. }
  rewrite RA. split; [reflexivity|]. split.
  { eapply wf_of_sinv; [exact S2|]. intros x Hx Q. destruct (ssa_initial _ _ B x Hx) as [Ux Nx].
    assert (E3 : forall y, In y (outputs (b_ui st2)) -> user_name y -> In y (flat_map c_out instrs)).
    { intros y Hy Uy. unfold outputs in Hy. apply in_flat_map in Hy as (i & Hi & Hy).
      destruct (O i Hi) as [(z & Hp & _ & Q3)|(c & Hc & D1 & D2 & _)].
      - exact (Q3 y Hy Uy).
      - apply in_flat_map. exists c. split; [exact Hc|congruence]. }
    exact (Nx (E3 x Q Ux)). }
  intros V Loc LV sem Hm e0 w0. cbv zeta.
  assert (AG : agree sem e0 w0 instrs (b_ui st2)).
  { apply A2. apply A1. split; [reflexivity|auto]. }
  destruct (dce_exec sem (b_ui st2) (fun i => negb (mem (i_id i) un)) (si_nodup _ _ _ _ S2) (ks_closed _ _ _ K)) with (e := e0) (w := w0)
    as (D1 & D2).
  { intros i Hi Q args w. destruct (O i Hi) as [(z & Hp & _ & _)|(c & Hc & L1 & L2 & L3 & L4 & _)].
    - rewrite (is_push_denote sem i z args w Hp). reflexivity.
    - rewrite L4. apply Hm; auto. rewrite <- L3. destruct (i_storage i) eqn:Sg; [|reflexivity].
      rewrite (ks_storage _ _ _ K i Hi Sg) in Q. discriminate. }
  destruct AG as [AG1 AG2]. split; [exact (eq_trans D1 AG1)|].
  set (tgt := map (fun v => dict_get_default v (b_alias st2) v) fin) in *.
  assert (KT : forall x, In x tgt -> fst (exec_prog sem (filter (fun i => negb (mem (i_id i) un)) (b_ui st2)) (e0, w0)) x
     = fst (exec_prog sem (b_ui st2) (e0, w0)) x).
  { intros x Hx. apply D2. intros i Hi Xi. exact (ks_tgt _ _ _ K i x Hi Xi Hx). }
  assert (G : forall l, (forall v, In v l -> In v fin) ->
     Forall2 (fun v x => v <> "bottom" -> fst (exec_prog sem (filter (fun i => negb (mem (i_id i) un)) (b_ui st2)) (e0, w0)) x
        = aval sem (fst (exec_cfg sem instrs (e0, w0))) v) l (map (fun v => dict_get_default v (b_alias st2) v) l)).
  { induction l as [|v l IH]; intros Hl; [constructor|]. cbn [map]. constructor; [|apply IH; intros; apply Hl; simpl; auto].
    intros Nb. assert (Hv : In v fin) by (apply Hl; simpl; auto).
    rewrite KT by (unfold tgt; apply (in_map (fun v => dict_get_default v (b_alias st2) v)); exact Hv).
    unfold dict_get_default. destruct (Hf v Hv) as [U|[(L & z & Hz & Pz)|U]]; [| |contradiction].
    - destruct (dict_get v (b_alias st2)) as [y|] eqn:E.
      + apply dict_get_In in E. destruct (si_alias_name _ _ _ _ S2 v y E) as [Q|Q].
        * exfalso. eapply is_fresh_not_user; eauto.
        * exfalso. apply (proj1 (si_extra _ _ _ _ S2 v Q)). exact U.
      + rewrite AG2 by exact U. unfold aval. destruct U as [U _]. rewrite U. reflexivity.
    - destruct (E2 (entry_of v)) as (o & n & i & E & M & Ni & Io); [apply C4; auto|].
      unfold entry_of in E, M. cbn [fst snd] in E, M. rewrite (proj2 (String.eqb_neq _ _) Nb) in M. rewrite E.
      destruct (si_map _ _ _ _ S2 v n M) as (i' & z' & o' & Q1 & Q2 & Q3 & Q4 & _).
      assert (i' = i) by congruence. subst i'. unfold aval. rewrite L, Q3.
      eapply push_value; [apply S2|eapply nth_error_In; eauto|exact Q2|exact Io]. }
  apply G. auto.
Qed.

Lemma before_split_stack split final target : before_split split final target -> stack_before_split split final = target.
Proof.
  destruct split as [i|]; simpl; [|auto]. intros (rest & -> & ->).
  rewrite skipn_app, skipn_all, Nat.sub_diag. reflexivity.
Qed.
