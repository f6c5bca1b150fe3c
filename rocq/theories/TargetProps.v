(** Properties of the synthesizer as a whole (C55). *)
From Coq Require Import Permutation.
From Verif Require Import Base Lexical SymExecModel AsmModel FootprintSpec.
From Verif Require UtilModel GreedyTailModel GreedyTailProofs.
From Verif Require Import PermutModel SearchModel SearchSpec SearchProofs SearchProps StoreSpec SearchOrder SearchIds TargetModel TargetSpec TargetProofs.
Open Scope string_scope. Open Scope list_scope. Open Scope Z_scope.

Lemma betweenb_ok ui deps : betweenb ui deps = true -> between ui deps.
Proof. unfold betweenb. rewrite forallb_forall. intros H a b D. specialize (H _ D). apply andb_true_iff in H as [A B]. split; apply mem_In; assumption. Qed.
Lemma well_givenb_ok sp : well_givenb sp = true -> well_given sp.
Proof.
  unfold well_givenb. intros H. apply andb_true_iff in H as [H G]. apply andb_true_iff in H as [H F]. apply andb_true_iff in H as [H E].
  apply andb_true_iff in H as [H D]. apply andb_true_iff in H as [H C]. apply andb_true_iff in H as [A B].
  rewrite forallb_forall in B, C, D. constructor.
  - apply well_formedb_ok. exact A.
  - intros i Hi O. specialize (B _ Hi). rewrite O in B. apply andb_true_iff in B as [B1 B2]. split; [apply mem_In; exact B1|exact B2].
  - intros i Hi. apply plainb_ok. auto.
  - intros x Hx. specialize (D _ Hx). apply andb_true_iff in D as [D1 D2]. split; [apply plainb_ok; exact D1|apply negb_true_iff; exact D2].
  - apply betweenb_ok. exact E.
  - apply betweenb_ok. exact F.
  - apply betweenb_ok. exact G.
Qed.

Lemma up_shape ui tbl : up_to_commutation ui tbl -> shape ui tbl.
Proof.
  unfold up_to_commutation, shape. intros H. induction H as [|i j l t V _ IH]; constructor; [|exact IH].
  destruct V as [-> | [_ ->]]; cbn; repeat split; auto. intros x. apply in_rev.
Qed.
Lemma store_iff ui i : well_formed ui -> In i ui -> (store ui (i_id i) = true <-> i_outpt i = []).
Proof.
  intros W Hi. unfold store. rewrite existsb_exists. split.
  - intros (k & Hk & E). apply andb_true_iff in E as [E1 E2]. apply String.eqb_eq in E1. rewrite (same_id ui W k i Hk Hi E1) in E2. destruct (i_outpt i); [reflexivity|discriminate].
  - intros O. exists i. rewrite String.eqb_refl, O. auto.
Qed.

(** What one attempt gives, for the target [final]. *)
Record attempt (ui : list instr) (src final : list string) (deps : list (string * string)) (ids : list string) : Prop := {
  at_stack : run_symbolic ids ui src = Ok final;
  at_nodup : NoDup (stores ui ids);
  at_all : forall i, In i ui -> i_outpt i = [] -> In (i_id i) ids;
  at_order : forall a b, In (a, b) deps -> store ui a = true -> store ui b = true -> precedes a b ids;
  at_shape : shaped (map i_id ui) ids
}.

Section Attempt.
Context (sp : TargetModel.spec) (G : well_given sp).
Let ui := ops_of sp.
Lemma effects_write i : In i ui -> i_outpt i = [] -> is_write (i_id i) = true.
Proof. intros Hi O. apply (wg_effects _ G i Hi O). Qed.
Lemma effects_opcode i : In i ui -> i_outpt i = [] -> In (i_disasm i) ["TSTORE"] \/ In (i_disasm i) ["SSTORE"] \/ In (i_disasm i) mwrite_operations.
Proof.
  intros Hi O. destruct (wg_effects _ G i Hi O) as [H _]. unfold write_operations in H. cbn [In] in *.
  repeat match goal with H : _ \/ _ |- _ => destruct H as [H|H] end; try contradiction; rewrite <- H; unfold mwrite_operations; cbn [In]; tauto.
Qed.
Definition disasms (tbl : list instr) : Prop := map i_disasm tbl = map i_disasm ui.
Lemma up_disasms tbl : up_to_commutation ui tbl -> disasms tbl.
Proof.
  unfold up_to_commutation, disasms. intros H. induction H as [|i j l t V _ IH]; cbn; [reflexivity|]. rewrite IH. f_equal. destruct V as [-> | [_ ->]]; reflexivity.
Qed.

Lemma plan_attempt fuel e tbl final ops tbl' reach : ready ui tbl e -> up_to_commutation ui tbl ->
  g_initial (e_setup e) = s_src (t_sfs sp) -> g_final (e_setup e) = final -> e_deps e = s_deps (t_sfs sp) ->
  (forall x, In x final -> plain x /\ is_write x = false) ->
  plan_and_search fuel e = Ok (ops, tbl') -> GreedyTailModel.check_dup_swap reach (map snd ops) = Ok tt ->
  attempt ui (s_src (t_sfs sp)) final (s_deps (t_sfs sp)) (map snd (GreedyTailModel.remove_useless ops)) /\ up_to_commutation ui tbl'.
Proof.
  intros (T & Am & As & At & FD) UC Ei Ef Ed PF E C. unfold plan_and_search in E. apply bind_ok in E as ([[pending ns] uses] & TG & E).
  pose proof (wg_ops _ G : well_formed ui) as W. pose proof (up_shape _ _ UC) as Sh.
  unfold target in TG. rewrite T in *. apply bind_ok in TG as ([order final_ids] & SO & TG). apply bind_ok in TG as (u1 & CD & TG).
  apply bind_ok in TG as (fns & _ & TG). apply bind_ok in TG as (nost & NN & TG). apply bind_ok in TG as (t1 & RN & TG). apply bind_ok in TG as (t2 & AN & TG).
  apply bind_ok in TG as (u2 & _ & TG). apply bind_ok in TG as (us & CU & TG). apply bind_ok in TG as (u3 & _ & TG). injection TG as -> _ <-.
  apply py_assert_ok in CD. rewrite Ed in CD.
  apply sort_with_deps_writes in SO as (ND & VFin & Full & Only).
  assert (PV : forall id v, first_output tbl id = Ok v -> is_write v = false /\ plain v) by (apply (first_output_value ui W tbl Sh)).
  apply (needed_nostores_out tbl (fun v => is_write v = false /\ plain v) PV) in NN.
  assert (Forced : forall x, In x (sort_by str_le (add_all nost [])) -> is_write x = false /\ plain x).
  { intros x Hx. apply (Permutation_in _ (sort_by_perm _ _)) in Hx. apply add_all_In in Hx as [Hx|[]]. apply NN. exact Hx. }
  destruct (rename_writes ui W tbl Sh plain (fun id v H => proj2 (PV id v H)) _ _ _ RN ND) as [W1 P1]. cbn [app] in W1.
  apply add_needed_writes in AN as [W2 P2]; [|intros x Hx; apply (Forced x Hx)].
  assert (Elems : forall x, In x (get_ops_id tbl ["TSTORE"] ++ get_ops_id tbl ["SSTORE"] ++ get_ops_id tbl mwrite_operations) -> In x (map i_id ui)).
  { intros x Hx. rewrite !in_app_iff in Hx. destruct Hx as [Hx|[Hx|Hx]]; exact (get_ops_known ui tbl Sh _ _ Hx). }
  assert (PP : all_plain pending).
  { assert (Po : forall x, In x order -> is_write x = true -> plain x).
    { intros x Hx Wx. assert (K : In x (map i_id ui)).
      { destruct (Only x Wx Hx) as [K|(a & b & D & K)]; [apply Elems; exact K|].
        assert (AB : about ui (e_trans e ++ e_sto e ++ e_mem e)) by (repeat apply about_app; assumption).
        destruct (AB _ _ D). destruct K as [-> | ->]; assumption. }
      apply in_map_iff in K as (i & <- & Hi). apply (wg_ids _ G). exact Hi. }
    intros x Hx. apply P2 in Hx as [Hx|Hx]; [apply Forced; exact Hx|]. apply P1; [intros ? []|exact Po|exact Hx]. }
  assert (VI : values (g_initial (e_setup e))).
  { rewrite Ei. intros x Hx. apply (wg_stacks _ G). apply in_app_iff. left. exact Hx. }
  assert (VF : values (g_final (e_setup e))) by (rewrite Ef; intros x Hx; apply PF; exact Hx).
  assert (VK : values (map fst us)) by (eapply (count_uses_keys ui W tbl Sh); eauto).
  set (g0 := {| g_tbl := tbl; g_need := _; g_dup := 0; g_todo := _; g_done := [] |}) in E.
  assert (TM : tame ui (g_initial (e_setup e)) g0).
  { split; [exact Sh|]. split; [exact VI|]. cbn. intros x Hx. apply in_map_iff in Hx as (kv & <- & Hx). apply filter_In in Hx as [Hx _]. apply VK, in_map, Hx. }
  pose proof (check_no_zero _ _ C) as NZ.
  destruct (search_emits ui W effects_write (e_setup e) FD VF fuel pending ns g0 ops tbl' E TM NZ) as [St _].
  destruct (search_runs ui W (place_of ui) (ordered ui W) fuel (e_setup e) pending ns g0 ops tbl' E) as [(R & _ & NM) UC'].
  { apply intact_up. exact UC. }
  { rewrite Ei. intros x Hx. apply (wg_stacks _ G). apply in_app_iff. left. exact Hx. }
  { rewrite Ef. intros x Hx. apply PF. exact Hx. }
  { exact PP. }
  { exact NZ. }
  split; [|eapply intact_up; exact UC'].
  assert (SW : store ui "SWAP1" = false) by (apply (value_store ui effects_write); reflexivity).
  pose proof (remove_useless_stores (store ui) ops SW NM) as RU.
  set (ids := map snd (GreedyTailModel.remove_useless ops)) in *.
  assert (FW : forall l, stores ui l = stores ui (writes l)).
  { intros l. unfold stores, writes. induction l as [|x l IH]; cbn [filter]; [reflexivity|]. destruct (is_write x) eqn:Wx; cbn [filter].
    - rewrite IH. reflexivity.
    - rewrite (value_store ui effects_write x Wx). exact IH. }
  assert (SO : stores ui ids = stores ui order).
  { transitivity (stores ui pending); [exact (eq_trans RU St)|]. rewrite (FW pending), (FW order), W2, W1. reflexivity. }
  assert (All : forall i, In i ui -> i_outpt i = [] -> In (i_id i) order).
  { intros i Hi O. apply Full; [apply effects_write; assumption|]. rewrite !in_app_iff.
    assert (K : forall l, In (i_disasm i) l -> In (i_id i) (get_ops_id tbl l)).
    { intros l Hl. unfold get_ops_id. clear -UC Hi Hl. unfold up_to_commutation in UC. induction UC as [|a b l1 l2 V _ IH]; [destruct Hi|].
      cbn [filter]. destruct Hi as [->|Hi].
      - assert (Q : i_disasm b = i_disasm i /\ i_id b = i_id i) by (destruct V as [-> | [_ ->]]; auto). destruct Q as [Q1 Q2].
        rewrite Q1. replace (mem (i_disasm i) l) with true by (symmetry; apply mem_In; exact Hl). cbn. left. exact Q2.
      - destruct (mem (i_disasm b) l); [right|]; apply IH; exact Hi. }
    destruct (effects_opcode i Hi O) as [K1|[K1|K1]]; auto. }
  assert (InS : forall a, store ui a = true -> In a order).
  { intros a Sa. unfold store in Sa. apply existsb_exists in Sa as (i & Hi & Q). apply andb_true_iff in Q as [Q1 Q2]. apply String.eqb_eq in Q1. subst a.
    apply All; [exact Hi|]. destruct (i_outpt i); [reflexivity|discriminate]. }
  constructor.
  - unfold ids. rewrite <- Ei, <- Ef. apply GreedyTailProofs.remove_useless_symbolic; assumption.
  - rewrite SO, FW. apply NoDup_filter. exact ND.
  - intros i Hi O. assert (Q : In (i_id i) (stores ui ids)); [|apply filter_In in Q; tauto]. rewrite SO. apply filter_In. split; [apply All; assumption|].
    apply store_iff; assumption.
  - intros a b D Sa Sb. apply (precedes_unfilter (store ui)). change (precedes a b (stores ui ids)). rewrite SO.
    pose proof (check_precedes _ _ a b CD D) as Q. assert (Q1 : precedes a b (order ++ final_ids)) by (apply Q; apply in_app_iff; left; apply InS; assumption).
    apply (precedes_filter (store ui)) in Q1; [|assumption..]. rewrite filter_app in Q1.
    rewrite (filter_none (store ui) final_ids) in Q1 by (intros x Hx; apply (value_store ui effects_write); apply VFin; exact Hx). rewrite app_nil_r in Q1. exact Q1.
  - assert (EI : map i_id tbl = map i_id ui) by (clear -UC; unfold up_to_commutation in UC; induction UC as [|a b l1 l2 V _ IH]; [reflexivity|];
      cbn; rewrite IH; f_equal; destruct V as [-> | [_ ->]]; reflexivity).
    pose proof (search_shaped _ _ _ _ _ _ _ E NZ) as SH. cbn [g_tbl g0] in SH. rewrite EI in SH.
    apply (shaped_filter _ _ _ SH).
    + intros x Hx. apply in_map_iff in Hx as (z & <- & Hz). apply in_map. apply GreedyTailProofs.remove_useless_incl. exact Hz.
    + intros p Hp. exact (remove_useless_stores p ops Hp NM).
Qed.

Lemma greedy_attempt fuel reach pd garbage ids : greedy_from_json fuel reach pd garbage sp = Ok (Some ids) ->
  exists junk, attempt ui (s_src (t_sfs sp)) (s_tgt (t_sfs sp) ++ junk) (s_deps (t_sfs sp)) (map snd ids)
    /\ (junk = [] \/ (garbage = true /\ junk = s_src (t_sfs sp))).
Proof.
  unfold greedy_from_json. intros E. apply bind_ok in E as (e & I & E).
  destruct (synthesize_body fuel reach pd garbage sp e) as [l|[]] eqn:B; try discriminate. injection E as ->.
  pose proof (wg_ops _ G : well_formed ui) as W.
  assert (U0 : up_to_commutation ui ui) by (apply (intact_up ui (fun _ => 0%nat)); apply same_table).
  assert (PT : forall x, In x (s_tgt (t_sfs sp)) -> plain x /\ is_write x = false) by (intros x Hx; apply (wg_stacks _ G), in_app_iff; auto).
  destruct (init_ready ui W ui (up_shape _ _ U0) _ _ _ _ _ _ I (wg_mem _ G) (wg_sto _ G) (wg_trans _ G)) as (Rd & Ei & Ef & Ed & _).
  unfold synthesize_body in B. apply bind_ok in B as ([ops tbl] & PS & B). apply bind_ok in B as (u1 & _ & B). apply bind_ok in B as ([] & C & B). cbn [fst snd] in *.
  destruct (plan_attempt fuel e ui (s_tgt (t_sfs sp)) ops tbl _ Rd U0 Ei Ef Ed PT PS C) as [A1 U1].
  assert (First : exists junk, attempt ui (s_src (t_sfs sp)) (s_tgt (t_sfs sp) ++ junk) (s_deps (t_sfs sp)) (map snd (GreedyTailModel.remove_useless ops))
    /\ (junk = [] \/ (garbage = true /\ junk = s_src (t_sfs sp)))) by (exists []; rewrite app_nil_r; auto).
  destruct garbage; [|injection B as <-; exact First].
  apply bind_ok in B as ([s acc] & SA & B). cbn [fst snd] in B. destruct (_ && _ && _); [|injection B as <-; exact First]. injection B as <-.
  unfold second_attempt in SA. apply bind_ok in SA as (e2 & I2 & SA). apply bind_ok in SA as ([ops2 tbl2] & PS2 & SA). apply bind_ok in SA as ([] & C2 & SA).
  injection SA as <- _. cbn [fst snd] in *. destruct Rd as (_ & Am & As & At & _).
  destruct (init_ready ui W tbl (up_shape _ _ U1) _ _ _ _ _ _ I2 Am As At) as (Rd2 & Ei2 & Ef2 & Ed2 & _). cbn [t_sfs] in *.
  assert (PT2 : forall x, In x (s_tgt (t_sfs sp) ++ s_src (t_sfs sp)) -> plain x /\ is_write x = false).
  { intros x Hx. apply (wg_stacks _ G). rewrite in_app_iff in *. tauto. }
  destruct (plan_attempt fuel e2 tbl (s_tgt (t_sfs sp) ++ s_src (t_sfs sp)) ops2 tbl2 _ Rd2 U1 Ei2 Ef2 Ed2 PT2 PS2 C2) as [A2 _].
  exists (s_src (t_sfs sp)). auto.
Qed.
End Attempt.

(** Full property: when the synthesizer returns a sequence for a block, every
    operation of the block executed for its effect is executed exactly once, and
    where the specification orders two operations, in that order.

    Proved of the operations without a result (the stores, copies and logs); what
    is missing are the operations that also have a result (calls, creations) and
    the order of the loads. *)
Theorem stores_executed_once_partial fuel reach pd garbage sp ids :
  greedy_from_json fuel reach pd garbage sp = Ok (Some ids) -> well_given sp ->
  forall i, In i (ops_of sp) -> i_outpt i = [] -> once (i_id i) (map snd ids).
Proof.
  intros E G i Hi O. destruct (greedy_attempt sp G _ _ _ _ _ E) as (junk & A & _).
  apply (once_filter (store (ops_of sp))); [exact (at_nodup _ _ _ _ _ A)| |exact (at_all _ _ _ _ _ A i Hi O)].
  apply store_iff; [apply (wg_ops _ G)|exact Hi|exact O].
Qed.
Print Assumptions stores_executed_once_partial.

Theorem stores_executed_in_order_partial fuel reach pd garbage sp ids :
  greedy_from_json fuel reach pd garbage sp = Ok (Some ids) -> well_given sp ->
  forall a b, In (a, b) (s_deps (t_sfs sp)) -> store (ops_of sp) a = true -> store (ops_of sp) b = true -> precedes a b (map snd ids).
Proof. intros E G. destruct (greedy_attempt sp G _ _ _ _ _ E) as (junk & A & _). exact (at_order _ _ _ _ _ A). Qed.
Print Assumptions stores_executed_in_order_partial.

(** The sequence computes the target stack, whatever the plan the synthesizer
    makes for itself (C54 for the whole function). *)
Theorem greedy_reaches_target fuel reach pd garbage sp ids :
  greedy_from_json fuel reach pd garbage sp = Ok (Some ids) -> well_given sp ->
  exists junk, run_symbolic (map snd ids) (ops_of sp) (s_src (t_sfs sp)) = Ok (s_tgt (t_sfs sp) ++ junk)
    /\ (junk = [] \/ (garbage = true /\ junk = s_src (t_sfs sp))).
Proof.
  intros E G. destruct (greedy_attempt sp G _ _ _ _ _ E) as (junk & A & J). exists junk. split; [exact (at_stack _ _ _ _ _ A)|exact J].
Qed.
Print Assumptions greedy_reaches_target.

(** ** The validator *)
Lemma positions_from_none x : forall ids n, ~ In x ids -> positions_from n x ids = [].
Proof.
  induction ids as [|y ids IH]; cbn; intros n H; [reflexivity|]. destruct (String.eqb_spec y x) as [->|]; [exfalso; apply H; auto|]. apply IH. auto.
Qed.
Lemma positions_from_app x a : forall n b, positions_from n x (a ++ b) = positions_from n x a ++ positions_from (n + length a) x b.
Proof.
  induction a as [|y a IH]; cbn; intros n b; [rewrite Nat.add_0_r; reflexivity|]. rewrite IH, <- app_assoc. do 2 f_equal. f_equal. lia.
Qed.
Lemma positions_once x a b : ~ In x (a ++ b) -> positions x (a ++ x :: b) = [length a].
Proof.
  intros H. unfold positions. rewrite positions_from_app. cbn. rewrite String.eqb_refl, !positions_from_none; [reflexivity|..]; intros Q; apply H, in_app_iff; auto.
Qed.
Lemma count_none x l : ~ In x l -> count x l = 0%nat.
Proof. induction l as [|y l IH]; cbn; intros H; [reflexivity|]. destruct (String.eqb_spec y x); [exfalso; apply H; auto|]. apply IH. auto. Qed.
Lemma count_once x ids : once x ids -> count x ids = 1%nat.
Proof.
  intros (a & b & -> & H). rewrite in_app_iff in H. induction a as [|y a IH]; cbn.
  - rewrite String.eqb_refl, count_none; [reflexivity|tauto].
  - destruct (String.eqb_spec y x) as [->|]; [exfalso; apply H; left; left; reflexivity|]. apply IH. intros [Q|Q]; apply H; [left; right; exact Q|right; exact Q].
Qed.
Lemma split_unique x (a b c d : list string) : a ++ x :: b = c ++ x :: d -> ~ In x (a ++ b) -> length c = length a.
Proof.
  revert c. induction a as [|y a IH]; intros [|z c] E N; cbn in *; [reflexivity| | |].
  - exfalso. injection E as -> ->. apply N, in_app_iff. right. left. reflexivity.
  - injection E as -> _. exfalso. apply N. left. reflexivity.
  - injection E as -> E. f_equal. apply IH; [exact E|]. intros Q. apply N. right. exact Q.
Qed.
Lemma once_before a b ids : once a ids -> once b ids -> precedes a b ids ->
  exists m n, positions a ids = [m] /\ positions b ids = [n] /\ (m < n)%nat.
Proof.
  intros (a1 & a2 & Ea & Na) (b1 & b2 & Eb & Nb) (x & y & z & E). exists (length a1), (length b1).
  split; [rewrite Ea; apply positions_once; exact Na|]. split; [rewrite Eb; apply positions_once; exact Nb|].
  rewrite E in Ea, Eb. symmetry in Ea, Eb. pose proof (split_unique _ _ _ _ _ Ea Na) as Q1.
  change (x ++ a :: y ++ b :: z) with (x ++ (a :: y) ++ b :: z) in Eb. rewrite app_assoc in Eb.
  pose proof (split_unique _ _ _ _ _ Eb Nb) as Q2. rewrite app_length in Q2. cbn in Q2. lia.
Qed.
(** Where the operations with effects have no result and only they are ordered,
    the validator accepts every sequence the synthesizer returns. *)
Theorem validator_accepts_partial fuel reach pd garbage sp ids :
  greedy_from_json fuel reach pd garbage sp = Ok (Some ids) -> well_given sp ->
  (forall i, In i (ops_of sp) -> i_storage i = true -> contains "GAS" (i_disasm i) = false -> i_outpt i = []) ->
  (forall a b, In (a, b) (s_deps (t_sfs sp)) -> store (ops_of sp) a = true /\ store (ops_of sp) b = true) ->
  check_execution_from_ids (t_sfs sp) (map snd ids) garbage = Ok true.
Proof.
  intros E G HE HD. pose proof (stores_executed_once_partial _ _ _ _ _ _ E G) as O. pose proof (stores_executed_in_order_partial _ _ _ _ _ _ E G) as D.
  destruct (greedy_reaches_target _ _ _ _ _ _ E G) as (junk & R & J).
  unfold check_execution_from_ids. change (s_instrs (t_sfs sp)) with (ops_of sp). rewrite R. cbn [bind].
  assert (Q : (if garbage then firstn (length (s_tgt (t_sfs sp))) (s_tgt (t_sfs sp) ++ junk) else s_tgt (t_sfs sp) ++ junk) = s_tgt (t_sfs sp)).
  { destruct garbage; [rewrite firstn_app, firstn_all, Nat.sub_diag; apply app_nil_r|]. destruct J as [-> | [J _]]; [apply app_nil_r|discriminate]. }
  rewrite Q. assert (L : forall l : list string, list_eqb l l = true).
  { induction l as [|x l IH]; cbn; [reflexivity|]. rewrite String.eqb_refl. exact IH. }
  rewrite L. cbn [py_assert bind].
  assert (On : forall a, store (ops_of sp) a = true -> once a (map snd ids)).
  { intros a Sa. pose proof Sa as Sa'. unfold store in Sa. apply existsb_exists in Sa as (i & Hi & Q1). apply andb_true_iff in Q1 as [Q1 Q2]. apply String.eqb_eq in Q1. subst a.
    apply O; [exact Hi|]. destruct (i_outpt i); [reflexivity|discriminate]. }
  assert (CD : check_deps (map snd ids) (s_deps (t_sfs sp)) = Ok true).
  { assert (Sub : forall l, (forall a b, In (a, b) l -> In (a, b) (s_deps (t_sfs sp))) -> check_deps (map snd ids) l = Ok true).
    { induction l as [|[a b] l IH]; intros S; [reflexivity|]. pose proof (S a b (or_introl eq_refl)) as Hd. destruct (HD _ _ Hd) as [Sa Sb].
      destruct (once_before a b (map snd ids)) as (m & n & Pm & Pn & Lt); [auto..|]. cbn [check_deps]. rewrite Pm, Pn. cbn [py_max py_min fold_left bind].
      apply Nat.ltb_lt in Lt. rewrite Lt. apply IH. intros a' b' H. apply S. right. exact H. }
    apply Sub. auto. }
  rewrite CD. cbn [bind py_assert].
  assert (CC : check_counts (map snd ids) (ops_of sp) = Ok tt).
  { unfold check_counts. assert (Sub : forall l, (forall i, In i l -> In i (ops_of sp)) ->
      for_each (fun (_ : unit) i => if i_storage i && negb (contains "GAS" (i_disasm i)) then py_assert (count (i_id i) (map snd ids) =? 1)%nat else Ok tt) l tt = Ok tt).
    { induction l as [|i l IH]; intros S; [reflexivity|]. cbn [for_each]. destruct (i_storage i && negb (contains "GAS" (i_disasm i))) eqn:B.
      - apply andb_true_iff in B as [B1 B2]. apply negb_true_iff in B2. rewrite (count_once (i_id i)).
        + cbn. apply IH. intros k Hk. apply S. right. exact Hk.
        + apply O; [apply S; left; reflexivity|]. apply HE; auto. apply S. left. reflexivity.
      - cbn [bind]. apply IH. intros k Hk. apply S. right. exact Hk. }
    apply Sub. auto. }
  rewrite CC. reflexivity.
Qed.
Print Assumptions validator_accepts_partial.

(** ** Blocks that meet the hypotheses *)
Module TargetExample.
Definition mk := SearchExample.mk.
(** let s0 := mload(32)  mstore(32, b)  let s1 := mload(a)  let s2 := add(s0, s1)
    sstore(s2, s1)  mstore(s2, a), from the stack a b to the stack b s2. *)
Definition ui : list instr :=
  [mk "PUSH_0" "PUSH" [] ["s9"] false false (Some [PInt 32]); mk "MLOAD_0" "MLOAD" ["s9"] ["s0"] false false None;
   mk "MSTORE_0" "MSTORE" ["s9"; "b"] [] false true None; mk "MLOAD_1" "MLOAD" ["a"] ["s1"] false false None;
   mk "ADD_0" "ADD" ["s0"; "s1"] ["s2"] true false None; mk "SSTORE_0" "SSTORE" ["s2"; "s1"] [] false true None;
   mk "MSTORE_1" "MSTORE" ["s2"; "a"] [] false true None].
Definition deps : list (string * string) :=
  [("MLOAD_0", "MSTORE_0"); ("MSTORE_0", "MLOAD_1"); ("MSTORE_0", "MSTORE_1"); ("MLOAD_0", "MSTORE_1"); ("MLOAD_1", "MSTORE_1")].
Definition sp : TargetModel.spec :=
  {| t_sfs := {| s_src := ["a"; "b"]; s_tgt := ["b"; "s2"]; s_instrs := ui; s_deps := deps |};
     t_mem := deps; t_sto := []; t_trans := []; t_size := (fun _ => 2); t_gas := (fun _ => 3) |}.
Definition found (r : result (option (list op))) : list op := match r with Ok (Some l) => l | _ => [] end.
Definition ids := found (greedy_from_json 60 16 2 true sp).
Lemma run_ok : greedy_from_json 60 16 2 true sp = Ok (Some ids).
Proof. vm_compute. reflexivity. Qed.
Lemma sp_given : well_given sp.
Proof. apply well_givenb_ok. vm_compute. reflexivity. Qed.
Example ids_are : map snd ids
  = ["PUSH_0"; "MLOAD_0"; "DUP3"; "PUSH_0"; "MSTORE_0"; "DUP2"; "MLOAD_1"; "DUP1"; "SWAP2"; "ADD_0"; "SWAP3"; "SWAP2"; "DUP4";
     "MSTORE_1"; "DUP3"; "SSTORE_0"].
Proof. vm_compute. reflexivity. Qed.
Example stores_executed_once_applies : once "SSTORE_0" (map snd ids) /\ once "MSTORE_0" (map snd ids).
Proof.
  split; [apply (stores_executed_once_partial _ _ _ _ _ _ run_ok sp_given (mk "SSTORE_0" "SSTORE" ["s2"; "s1"] [] false true None))
         |apply (stores_executed_once_partial _ _ _ _ _ _ run_ok sp_given (mk "MSTORE_0" "MSTORE" ["s9"; "b"] [] false true None))];
    try reflexivity; cbn; tauto.
Qed.
Example stores_executed_in_order_applies : precedes "MSTORE_0" "MSTORE_1" (map snd ids).
Proof. apply (stores_executed_in_order_partial _ _ _ _ _ _ run_ok sp_given); [cbn; tauto|vm_compute; reflexivity..]. Qed.
Example greedy_reaches_target_applies : exists junk, run_symbolic (map snd ids) ui ["a"; "b"] = Ok (["b"; "s2"] ++ junk).
Proof. destruct (greedy_reaches_target _ _ _ _ _ _ run_ok sp_given) as (junk & R & _). exists junk. exact R. Qed.

(** The same without loads. *)
Definition ui2 : list instr :=
  [mk "PUSH_0" "PUSH" [] ["s9"] false false (Some [PInt 32]); mk "MSTORE_0" "MSTORE" ["s9"; "b"] [] false true None;
   mk "ADD_0" "ADD" ["a"; "b"] ["s2"] true false None; mk "SSTORE_0" "SSTORE" ["s2"; "a"] [] false true None;
   mk "SSTORE_1" "SSTORE" ["a"; "s2"] [] false true None; mk "MSTORE_1" "MSTORE" ["s2"; "a"] [] false true None].
Definition sp2 : TargetModel.spec :=
  {| t_sfs := {| s_src := ["a"; "b"]; s_tgt := ["s2"; "b"]; s_instrs := ui2; s_deps := [("SSTORE_1", "SSTORE_0"); ("MSTORE_1", "MSTORE_0")] |};
     t_mem := [("MSTORE_1", "MSTORE_0")]; t_sto := [("SSTORE_1", "SSTORE_0")]; t_trans := []; t_size := (fun _ => 2); t_gas := (fun _ => 3) |}.
Definition ids2 := found (greedy_from_json 60 16 2 true sp2).
Lemma run2_ok : greedy_from_json 60 16 2 true sp2 = Ok (Some ids2).
Proof. vm_compute. reflexivity. Qed.
Lemma sp2_given : well_given sp2.
Proof. apply well_givenb_ok. vm_compute. reflexivity. Qed.
Example validator_accepts_applies : check_execution_from_ids (t_sfs sp2) (map snd ids2) true = Ok true.
Proof.
  apply (validator_accepts_partial _ _ _ _ _ _ run2_ok sp2_given).
  - intros i Hi. cbn in Hi. repeat (destruct Hi as [<-|Hi]); try (destruct Hi); cbn; intros; try discriminate; reflexivity.
  - intros a b H. cbn in H. destruct H as [H|[H|[]]]; injection H as <- <-; split; vm_compute; reflexivity.
Qed.

(** An operation without a result that is not in the list of those that write
    is left out of the sequence. *)
Definition sp3 : TargetModel.spec :=
  {| t_sfs := {| s_src := ["a"; "b"]; s_tgt := ["b"]; s_instrs := [mk "verbatim_1i_0o_args_5f" "VERBATIM" ["a"] [] false true None]; s_deps := [] |};
     t_mem := []; t_sto := []; t_trans := []; t_size := (fun _ => 2); t_gas := (fun _ => 3) |}.
Definition ids3 := found (greedy_from_json 60 16 2 false sp3).
Example other_effects_dropped_refuted :
  greedy_from_json 60 16 2 false sp3 = Ok (Some ids3) /\ map snd ids3 = ["POP"]
  /\ ~ (forall i, In i (ops_of sp3) -> i_outpt i = [] -> once (i_id i) (map snd ids3)).
Proof.
  split; [vm_compute; reflexivity|]. split; [vm_compute; reflexivity|]. intros H.
  destruct (H (mk "verbatim_1i_0o_args_5f" "VERBATIM" ["a"] [] false true None) (or_introl eq_refl) eq_refl) as (a & b & E & _).
  assert (Q : In "verbatim_1i_0o_args_5f" (map snd ids3)) by (cbn [i_id mk SearchExample.mk] in E; rewrite E; apply in_app_iff; right; left; reflexivity).
  vm_compute in Q. destruct Q as [Q|[]]. discriminate.
Qed.
End TargetExample.
