(** C44: putting in jumps and tags and splitting at calls keeps what a whole
    object does. *)
From Verif Require Import Base Lexical SymExecModel MachineSpec DepsModel SpecSem UtilModel UtilProps UnifyProps LiveModel CfgModel CfgSpec CfgProps CombineProps
  JumpModel ProgSem JumpSpec JumpTrace JumpProofs JumpProps ObjSem ObjSim ObjSplit ObjErase ObjProgram ObjProg.
Open Scope string_scope. Open Scope list_scope.

Lemma map_Do_app l p q : map Do l = p ++ q -> exists l1 l2, l = l1 ++ l2 /\ map Do l1 = p /\ map Do l2 = q.
Proof.
  revert p. induction l as [|i l IH]; intros p Q.
  - symmetry in Q. apply app_eq_nil in Q as (-> & ->). exists [], []. auto.
  - destruct p as [|e p]; [exists [], (i :: l); auto|]. cbn [map app] in Q. injection Q as <- Q. destruct (IH p Q) as (l1 & l2 & -> & <- & <-). exists (i :: l1), l2. auto.
Qed.
Lemma kept_shown_plain ob c g x b : object_ok ob -> JumpSpec.component ob c g -> lookup x (cl_blocks g) = Some b ->
  shown (before (map fst (ob_functions ob)) (return_name ob c)) b = map Do (cb_instrs b).
Proof.
  intros H K L. unfold shown. assert (Q : forall l, (forall i, In i l -> In i (cb_instrs b)) -> flat_map (before (map fst (ob_functions ob)) (return_name ob c)) (map Do l) = map Do l).
  { induction l as [|i l IH]; intros S; [reflexivity|]. cbn [map flat_map]. rewrite (plain_before ob c g x b i H K L) by (apply S; now left). cbn [app]. f_equal. apply IH. intros; apply S; now right. }
  apply Q. auto.
Qed.
(** Every block of the result is a part of a block of the original. *)
Lemma origin ob ob' tags c x b' : object_ok ob -> insert_and_split ob = Ok (ob', tags) -> block_at ob' c x = Some b' ->
  exists g y b pre post, JumpSpec.component ob c g /\ lookup y (cl_blocks g) = Some b
    /\ cb_instrs b = pre ++ kept_instrs (map fst (ob_functions ob)) (return_name ob) c (cb_instrs b') ++ post
    /\ ((cb_type b' = cb_type b /\ cb_cond b' = cb_cond b /\ post = [] /\ (successors b' = [] -> successors b = []))
      \/ (cb_type b' = "sub_block" /\ successors b' <> [])) /\ placed ob' tags (return_name ob c) b'.
Proof.
  intros H R B. destruct (insert_and_split_changes ob H) as (ob2 & tags2 & R2 & _ & NM & AR & CH). rewrite R in R2. injection R2 as <- <-.
  unfold block_at in B. destruct (blocks_at ob' c) as [g'|] eqn:G'; [|discriminate].
  assert (exists g, JumpSpec.component ob c g) as (g & K).
  { destruct c as [f|]; [|exists (ob_main ob); reflexivity]. cbn in G'. destruct (lookup f (ob_functions ob')) as [k'|] eqn:L'; [|discriminate]. apply lookup_In_key in L'. rewrite NM in L'.
    destruct (key_lookup _ _ L') as (k & L). exists (fn_blocks k), k. auto. }
  destruct (CH c g K) as (g2 & K2 & _ & CC & PL). apply blocks_component in K2. rewrite G' in K2. injection K2 as <-.
  destruct (changed_origin _ g g' CC x b' B) as (y & b & L & pre & post & S & A). rewrite (kept_shown_plain ob c g y b H K L) in S. apply map_Do_app in S as (pre' & r & Q & _ & S).
  unfold shown in S. rewrite <- kept_shown in S. apply map_Do_app in S as (kk & post' & Q2 & S & P2). apply Do_inj in S as ->. exists g, y, b, pre', post'.
  split; [exact K|]. split; [exact L|]. split; [rewrite Q, Q2; reflexivity|]. split; [|exact (PL x b' B)].
  destruct A as [(A1 & A2 & A3 & A4)|A]; [left|right; exact A]. rewrite A3 in P2. destruct post'; [auto|discriminate].
Qed.

(** The program that the passes make of an object stops as the object does, with
    the same operation, arguments and world, and runs forever when the object
    does.  [sem] is what the operations mean, [truth] which words are true;
    [e] and [blank] are what variables nobody has assigned contain. *)
Theorem jumps_keep_meaning_partial : forall ob, object_ok ob -> object_readable ob ->
  exists ob' tags, insert_and_split ob = Ok (ob', tags)
    /\ forall (V Loc LV : Type) (sem : semantics V Loc LV) truth blank e w,
        let p := program_of ob' in
        let start := Run None None (k_start (g_main p)) e w [] in
        (forall op args w', stops (machine_words sem truth blank) ob w op args w' -> exists n, csteps sem truth blank n p start = Some (Halt op args w'))
        /\ (goes_on (machine_words sem truth blank) ob w -> forall n, exists c from b e' w' frames, csteps sem truth blank n p start = Some (Run c from b e' w' frames)).
Proof.
  intros ob H RD. destruct (insert_and_split_changes ob H) as (ob' & tags & R & _ & NM & AR & CH). exists ob', tags. split; [exact R|]. intros V Loc LV sem truth blank e w. cbv zeta.
  assert (FR : fresh_returns ob) by exact (or_returns ob RD).
  destruct (erased_does ob ob' tags H FR R V (Loc -> LV) (machine_words sem truth blank) w) as (ES & EG). rewrite <- NM in ES, EG.
  assert (PG : (forall op args w', stops (machine_words sem truth blank) (erase_object (map fst (ob_functions ob')) (return_name ob) ob') w op args w' ->
      exists n, csteps sem truth blank n (program_of ob') (begin ob' e w) = Some (Halt op args w'))
    /\ (goes_on (machine_words sem truth blank) (erase_object (map fst (ob_functions ob')) (return_name ob) ob') w ->
        forall n, exists t, csteps sem truth blank n (program_of ob') (begin ob' e w) = Some t)).
  { apply (erased_program sem truth blank ob' tags (return_name ob)).
    - rewrite NM. exact (oo_reserved ob H).
    - intros c x b B. destruct (origin ob ob' tags c x b H R B) as (? & ? & ? & ? & ? & _ & _ & _ & _ & P). exact P.
    - intros c x b j B J. rewrite NM in J. destruct (origin ob ob' tags c x b H R B) as (g & y & b0 & pre & post & K & L & Q & _ & _).
      assert (J0 : In j (cb_instrs b0)) by (rewrite Q; apply in_app_iff; right; apply in_app_iff; now left).
      split; [intros o O; eapply (or_outs ob RD); eauto|]. split; [intros v Iv SV; eapply (or_literals ob RD); eauto|]. split; [intros P; eapply (or_phis ob RD); eauto|]. eapply (or_invalid ob RD); eauto.
    - intros c x b v B T CD SV. destruct (origin ob ob' tags c x b H R B) as (g & y & b0 & pre & post & K & L & Q & [(_ & C0 & _)|(T0 & _)] & _); [|congruence].
      eapply (or_conds ob RD); eauto. congruence.
    - intros c x b pre j B T J F. rewrite NM in J, F. destruct (origin ob ob' tags c x b H R B) as (g & y & b0 & pre0 & post & K & L & Q & A & _). rewrite J in Q.
      destruct A as [(T0 & _ & -> & S0)|(T0 & S0)]; [|destruct T as [T|T]; [congruence|contradiction]]. rewrite app_nil_r, app_assoc in Q.
      eapply (or_exit ob RD); eauto. destruct T as [T|T]; [left; congruence|right; auto].
    - intros f k' L'. assert (exists k, lookup f (ob_functions ob) = Some k) as (k & L) by (apply key_lookup; rewrite <- NM; exact (lookup_In_key _ _ _ L')).
      destruct (AR f k L) as (k2 & L2 & A). rewrite L' in L2. injection L2 as <-. rewrite A.
      assert (OW : own_args (return_name ob) f (fn_args k) = fn_args k).
      { apply filter_all. intros x I. apply negb_true_iff. destruct (return_name ob (Some f)) as [r|] eqn:RN; [|reflexivity]. destruct (opt_eqb (Some x) (Some r)) eqn:Q; [|reflexivity].
        apply opt_eqb_eq in Q. injection Q as ->. elim (FR f k r L RN I). }
      assert (OQ : own_args (return_name ob) f (match return_name ob (Some f) with Some r => r :: fn_args k | None => fn_args k end) = fn_args k).
      { destruct (return_name ob (Some f)) as [r|] eqn:RN; [|exact OW]. unfold own_args in *. cbn [filter]. rewrite RN, opt_eqb_refl. cbn [negb]. rewrite RN in OW. exact OW. }
      rewrite OQ. split; [destruct (return_name ob (Some f)); reflexivity|]. intros x I. eapply (or_params ob RD); eauto. }
  destruct PG as (PS & PG). unfold begin in PS, PG. split; [intros op args w' S; apply PS, ES, S|]. intros G n. destruct (PG (EG G) (S n)) as (t & Q).
  rewrite csteps_iter in *. replace (S n) with (n + 1) in Q by lia. apply iter_prefix in Q as (t1 & Q1 & Q2). rewrite Q1. destruct t1 as [c from b e' w' fr|]; [|discriminate]. exists c, from, b, e', w', fr. reflexivity.
Qed.
Print Assumptions jumps_keep_meaning_partial.
