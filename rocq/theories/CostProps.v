(** What the estimation of costs tells, and that it never stops the inlining of
    functions. *)
From Coq Require Import Relations.
From Verif Require Import Base Lexical UtilModel UtilProps LevelProps LiveModel LiveProps CfgModel CfgSpec CfgProps InlineModel InlineProps
  JumpModel JumpSpec ObjSem ObjSim ObjSplit ObjRenameSpec ObjRename ObjSsaSpec ObjSsa ObjInlineModel ObjDriverSpec ObjInline InlineDriverModel ObjLayoutSpec ObjDriver ObjDriverProps CostModel CostSpec CostProofs CostSums.
From Verif Require UnifyProps JumpProofs JumpProps DepsModel JumpExamples ObjExamples.
Notation lookup := UtilModel.lookup.
Open Scope string_scope. Open Scope list_scope.

(** A function from which a recursion can be reached. *)
Definition leads_to_recursion (ob : cobject) (f : string) : Prop := exists h, (h = f \/ calls ob f h) /\ calls ob h h.
(** The costs known are infinite exactly for these. *)
Definition known_costs (ob : cobject) (costs : list (string * cost)) : Prop :=
  forall g c, lookup g costs = Some c -> In g (map fst (ob_functions ob)) /\ (fst c = None <-> leads_to_recursion ob g).
Definition literals_readable (ob : cobject) : Prop := forall c x, reads_at ob c x -> prefix "0x" x = true -> DepsModel.py_int16 x <> None.

Section Object.
Variable ob : cobject.
Hypothesis OO : object_ok ob.
Lemma direct_call f h : direct (ob_functions ob) f h <-> In h (map fst (ob_functions ob)) /\ exists b n, call_at ob h (Some f) b n.
Proof.
  split.
  - intros (I & k & [b blk] & i & L & B & J & O). split; [exact I|]. apply In_nth_error in J as (n & E). exists b, n, blk, i. split; [|auto]. apply block_component. exists (fn_blocks k).
    assert (K : JumpSpec.component ob (Some f) (fn_blocks k)) by (exists k; auto). split; [exact K|]. apply JumpProps.dict_In; [exact (c_keys _ (oo_consistent _ OO _ _ K))|exact B].
  - intros (I & b & n & blk & i & B & E & O). split; [exact I|]. apply block_component in B as (g & (k & L & <-) & Lb). exists k, (b, blk), i. split; [exact L|]. split; [now apply lookup_In|]. split; [eapply nth_error_In; exact E|exact O].
Qed.
Lemma reaches_calls f h : clos_trans string (direct (ob_functions ob)) f h <-> calls ob f h.
Proof.
  split.
  - induction 1 as [f h H|f g h _ IH1 _ IH2]; [|eapply calls_trans; eassumption]. apply direct_call in H as (I & b & n & C). eapply calls_here; eassumption.
  - induction 1 as [f h b n C I|f g h _ IH1 _ IH2]; [|eapply t_trans; eassumption]. apply t_step, direct_call. eauto.
Qed.
Lemma dirty_leads f : dirty (ob_functions ob) f <-> leads_to_recursion ob f.
Proof. unfold dirty, leads_to_recursion. split; intros (h & A & B); exists h; rewrite ?reaches_calls in *; auto; (split; [|exact B]); destruct A as [A|A]; auto; right; now apply reaches_calls. Qed.
Lemma readable_functions : literals_readable ob -> forall f k kb i, lookup f (ob_functions ob) = Some k -> In kb (cl_blocks (fn_blocks k)) -> In i (cb_instrs (snd kb)) -> readable_args (li_ins i).
Proof.
  intros R f k [b blk] i L B I x X. apply (R (Some f)). exists b, blk. split; [|left; eauto]. apply block_component. exists (fn_blocks k). assert (K : JumpSpec.component ob (Some f) (fn_blocks k)) by (exists k; auto). split; [exact K|]. apply JumpProps.dict_In; [exact (c_keys _ (oo_consistent _ OO _ _ K))|exact B].
Qed.
Lemma estimate_ends ins_cost f costs : literals_readable ob -> In f (map fst (ob_functions ob)) -> exists c costs', estimate ins_cost (ob_functions ob) f costs = Ok (c, costs') /\ lookup f costs' = Some c
  /\ (forall g, lookup g costs <> None -> lookup g costs' <> None) /\ (known_costs ob costs -> (fst c = None <-> leads_to_recursion ob f) /\ known_costs ob costs').
Proof.
  intros R I. destruct (cost_ends ins_cost (ob_functions ob) (readable_functions R) (length (ob_functions ob)) f {| cs_costs := costs; cs_traversed := [] |} I) as (c & st' & E & G & L & H).
  { unfold left_over. cbn [cs_traversed]. assert (W : forall l : list string, length (filter (fun g => negb (mem g [])) l) <= length l) by (induction l as [|a l IH]; [apply le_n|]; cbn in *; lia). eapply Nat.le_trans; [apply W|]. rewrite map_length. apply le_n. }
  exists c, (cs_costs st'). split; [unfold estimate; rewrite E; reflexivity|]. split; [exact L|]. split; [exact (proj2 G)|]. intros K. destruct H as (A & B & _).
  - intros g c0 L0. destruct (K g c0 L0) as (A & B). split; [exact A|]. rewrite dirty_leads. exact B.
  - intros g [].
  - split; [rewrite A; apply dirty_leads|]. intros g c0 L0. destruct (B g c0 L0) as (A' & B'). split; [exact A'|]. rewrite B'. apply dirty_leads.
Qed.
End Object.

(** The estimation of a function ends without an error.  Its gas is infinite
    exactly if a recursion can be reached from the function, and so is what is
    kept for the functions considered later. *)
Theorem gas_infinite_iff_recursion : forall ins_cost ob f costs, object_ok ob -> literals_readable ob -> In f (map fst (ob_functions ob)) -> known_costs ob costs ->
  exists c costs', estimate ins_cost (ob_functions ob) f costs = Ok (c, costs') /\ (fst c = None <-> leads_to_recursion ob f) /\ lookup f costs' = Some c /\ known_costs ob costs'.
Proof. intros ins_cost ob f costs OO R I K. destruct (estimate_ends ob OO ins_cost f costs R I) as (c & costs' & E & L & _ & H). destruct (H K). exists c, costs'. auto. Qed.
Print Assumptions gas_infinite_iff_recursion.

(** Every function of an object gets costs, which are infinite for the ones that
    lead to a recursion and for no other. *)
Theorem object_costs_tell_recursion : forall ins_cost ob, object_ok ob -> literals_readable ob ->
  exists costs, object_costs ins_cost (ob_functions ob) = Ok costs
  /\ (forall f, In f (map fst (ob_functions ob)) <-> exists c, lookup f costs = Some c)
  /\ (forall f c, lookup f costs = Some c -> (fst c = None <-> leads_to_recursion ob f)).
Proof.
  intros ins_cost ob OO R.
  assert (H : forall l costs, incl l (map fst (ob_functions ob)) -> known_costs ob costs -> exists costs', for_each (fun costs f => do r <- estimate ins_cost (ob_functions ob) f costs; Ok (snd r)) l costs = Ok costs'
    /\ known_costs ob costs' /\ (forall g, lookup g costs <> None -> lookup g costs' <> None) /\ (forall g, In g l -> lookup g costs' <> None)).
  { induction l as [|f l IH]; intros costs I K; [exists costs; split; [reflexivity|]; split; [exact K|]; split; [auto|intros g []]|].
    destruct (estimate_ends ob OO ins_cost f costs R (I f (or_introl eq_refl))) as (c & costs1 & E & L & G & H). destruct (H K) as (_ & K1).
    destruct (IH costs1 (fun x X => I x (or_intror X)) K1) as (costs' & E' & K' & G' & D'). exists costs'. cbn [for_each]. rewrite E. cbn [bind snd]. split; [exact E'|]. split; [exact K'|]. split; [auto|].
    intros g [<-|J]; [apply G'; rewrite L; discriminate|auto]. }
  destruct (H _ [] (incl_refl _)) as (costs & E & K & _ & D); [intros g c Q; discriminate Q|]. exists costs. split; [exact E|]. split; [|intros f c L; apply (K f c L)].
  intros f. split; [intros I; specialize (D f I); destruct (lookup f costs) as [c|]; [eauto|congruence]|intros (c & L); apply (K f c L)].
Qed.
Print Assumptions object_costs_tell_recursion.

(** The costs of the others are the sums over their code ([CostSpec]); there is
    one such sum, and none for a function that leads to a recursion. *)
Theorem finite_costs_add_up : forall ins_cost ob, object_ok ob -> literals_readable ob ->
  exists costs, object_costs ins_cost (ob_functions ob) = Ok costs
  /\ (forall f, In f (map fst (ob_functions ob)) -> ~ leads_to_recursion ob f -> exists c, lookup f costs = Some c /\ spends ins_cost (ob_functions ob) f c)
  /\ (forall f c, spends ins_cost (ob_functions ob) f c -> ~ leads_to_recursion ob f /\ fst c <> None /\ forall c', spends ins_cost (ob_functions ob) f c' -> c' = c).
Proof.
  intros ins_cost ob OO R. destruct (object_costs_tell_recursion ins_cost ob OO R) as (costs & E & D & I). exists costs. split; [exact E|]. split.
  - intros f If N. apply D in If as (c & L). exists c. split; [exact L|].
    assert (H : forall l a b, for_each (fun costs f => do r <- estimate ins_cost (ob_functions ob) f costs; Ok (snd r)) l a = Ok b -> right_costs ins_cost (ob_functions ob) a -> right_costs ins_cost (ob_functions ob) b).
    { induction l as [|g l IH]; intros a b F G; [injection F as <-; exact G|]. cbn [for_each] in F. unfold estimate at 1 in F. destruct (function_cost ins_cost (ob_functions ob) _ g _) as [[d st]|] eqn:Q; cbn [bind fst snd] in F; [|discriminate].
      apply (IH _ _ F). exact (proj1 (cost_right _ _ _ _ _ _ _ Q G)). }
    apply (H _ _ _ E); [intros g d Q; discriminate Q|exact L|]. intros Q. apply N. now apply (I f c L).
  - intros f c S. split; [rewrite <- (dirty_leads ob OO); eapply spends_clean; exact S|]. split; [eapply spends_finite; exact S|]. intros c' S'. eapply spends_one; eassumption.
Qed.
Print Assumptions finite_costs_add_up.

Lemma chosen_one f n costs c : lookup f costs = Some c -> chosen f n costs = Ok (Nat.eqb n 1).
Proof. intros L. unfold chosen. destruct (Nat.eqb n 1) eqn:E; [reflexivity|]. unfold must_be_inlined. rewrite L. cbn [of_option bind]. destruct (fst c); [rewrite E|]; reflexivity. Qed.

Section Pass.
Variable ob0 : cobject.
Hypothesis OO0 : object_ok ob0.
Notation fns ob := (map fst (ob_functions ob)).
Lemma step order : inlining_order ob0 order -> (forall f, called_once ob0 f -> ~ calls ob0 f f) -> forall f todo done ob cur, order = done ++ f :: todo -> inv ob0 done ob cur ->
  In f (fns ob) /\ exists ob1 cur1, inline_next (function_calls ob0) (ob, cur) f = Ok (ob1, cur1) /\ inv ob0 (done ++ [f]) ob1 cur1.
Proof.
  intros IO NR f todo done ob cur E IV.
  assert (If : In f order) by (rewrite E; apply in_app_iff; right; now left). assert (IF := proj1 (proj1 (io_called _ _ IO f) If)).
  assert (ND : forall x, In x done -> ~ In x (f :: todo)) by (pose proof (io_once _ _ IO) as N; rewrite E in N; apply NoDup_parts in N; tauto).
  split; [apply (iv_functions _ _ _ _ IV); split; [exact IF|]; intros (D & _); apply (ND f D); now left|].
  assert (DO : called_once ob0 f \/ ~ called_once ob0 f).
    { rewrite (once_iff ob0 OO0 f IF). destruct (calls_of (function_calls ob0) f) as [|s [|s2 l]]; [right; intros (? & Q); discriminate|left; eauto|right; intros (? & Q); discriminate]. }
    destruct DO as [DO|DO]; [|exact (step_other ob0 OO0 done ob cur f IV IF DO)]. apply (step_once ob0 OO0); auto; [intros I; apply (ND f I); now left|]. intros c b n C. destruct c as [p|]; [|split; [exact I|discriminate]].
    assert (IP : In p (fns ob0)) by (destruct C as (blk & i & B & _); apply block_component in B as (g & (k & L & _) & _); eapply lookup_In_key; eauto). split.
    - cbn. apply (iv_functions _ _ _ _ IV). split; [exact IP|]. intros (Dp & Op). assert (Io : In p order) by (rewrite E; apply in_app_iff; now left).
      destruct (io_sorted _ _ IO f p b n If Io C) as (l1 & l2 & l3 & Q); [intros Q; apply (NR f DO); eapply calls_trans; [exact Q|]; eapply calls_here; eauto|].
      (* f is before p, but p has been considered *)
      apply List.in_split in Dp as (d1 & d2 & ->). pose proof (io_once _ _ IO) as N. rewrite Q in N. assert (Q2 := E). rewrite Q in Q2. rewrite <- app_assoc in Q2. cbn [app] in Q2.
      assert (U : forall (a1 : list string) a2 e1 e2, NoDup (a1 ++ p :: a2) -> a1 ++ p :: a2 = e1 ++ p :: e2 -> a1 = e1).
      { induction a1 as [|y a1 IHa]; intros a2 e1 e2 Na Ea; destruct e1 as [|z e1]; cbn [app] in Ea; [reflexivity| | |].
        - exfalso. injection Ea as -> ->. inversion Na as [|? ? N1 _]; subst. apply N1. apply in_app_iff. right. now left.
        - exfalso. injection Ea as -> _. cbn [app] in Na. inversion Na as [|? ? N1 _]; subst. apply N1. apply in_app_iff. right. now left.
        - injection Ea as -> Ea. f_equal. cbn [app] in Na. inversion Na as [|? ? N1 N2]; subst. eapply IHa; eauto. }
      replace (l1 ++ f :: l2 ++ p :: l3) with ((l1 ++ f :: l2) ++ p :: l3) in Q2, N by now rewrite <- app_assoc. apply (U _ _ _ _ N) in Q2. apply (ND f); [|now left]. rewrite <- Q2. apply in_app_iff. left. apply in_app_iff. right. now left.
    - intros Q. injection Q as ->. apply (NR f DO). eapply calls_here; eauto.
Qed.
Lemma costed_step ins_cost ob cur costs f ob1 cur1 : object_ok ob -> literals_readable ob -> In f (fns ob) -> inline_next (function_calls ob0) (ob, cur) f = Ok (ob1, cur1) ->
  exists costs1, costed_next ins_cost (function_calls ob0) (ob, cur, costs) f = Ok (ob1, cur1, costs1).
Proof.
  intros OO R I E. unfold costed_next. destruct (lookup f (ob_functions ob)) as [k|] eqn:L; [|apply lookup_None in L; contradiction]. cbn [of_option bind].
  destruct (estimate_ends ob OO ins_cost f costs R I) as (c & costs' & Q & Lc & _ & _). rewrite Q. cbn [bind snd]. rewrite (chosen_one f _ costs' c Lc). cbn [bind]. exists costs'.
  unfold inline_next in E. rewrite L in E. cbn [of_option bind] in E. destruct (calls_of (function_calls ob0) f) as [|[[sn sid] sc] [|s2 l]] eqn:C.
  - injection E as <- <-. reflexivity.
  - cbn [length Nat.eqb]. unfold inline_next. rewrite L, C. cbn [of_option bind]. rewrite E. reflexivity.
  - cbn [length Nat.eqb]. injection E as <- <-. reflexivity.
Qed.
Lemma costed_loop ins_cost order : laid_out ob0 -> inlining_order ob0 order -> (forall f, called_once ob0 f -> ~ calls ob0 f f) -> forall todo done ob cur costs, order = done ++ todo -> inv ob0 done ob cur ->
  exists ob' cur' costs', for_each (inline_next (function_calls ob0)) todo (ob, cur) = Ok (ob', cur') /\ for_each (costed_next ins_cost (function_calls ob0)) todo (ob, cur, costs) = Ok (ob', cur', costs').
Proof.
  intros LO IO NR. induction todo as [|f todo IH]; intros done ob cur costs E IV; [exists ob, cur, costs; auto|].
  destruct (step order IO NR f todo done ob cur E IV) as (I & ob1 & cur1 & E1 & IV1).
  destruct (costed_step ins_cost ob cur costs f ob1 cur1 (iv_object _ _ _ _ IV) (lo_literals _ (iv_layout _ _ _ _ IV LO)) I E1) as (costs1 & E2).
  destruct (IH (done ++ [f]) ob1 cur1 costs1) as (ob' & cur' & costs' & A & B); [rewrite <- app_assoc; exact E|exact IV1|]. exists ob', cur', costs'. cbn [for_each]. rewrite E1, E2. auto.
Qed.
End Pass.

(** The pass with its costs gives what it gives without them: the functions
    called once are inlined, and no estimation raises. *)
Theorem costs_do_not_change_inlining : forall ins_cost ob order, object_ok ob -> ssa ob -> calls_ok ob -> laid_out ob -> inlining_order ob order -> (forall f, called_once ob f -> ~ calls ob f f) ->
  exists ob', costed_inlining ins_cost order ob = Ok ob' /\ inline_functions order ob = Ok ob' /\ carries_over ob ob'
  /\ (forall f, In f (map fst (ob_functions ob')) <-> In f (map fst (ob_functions ob)) /\ ~ called_once ob f).
Proof.
  intros ins_cost ob order OO SS CA LO IO NR. destruct (inline_functions_keeps_meaning ob order OO SS CA IO NR) as (ob' & E & CO & FN & _).
  destruct (costed_loop ob OO ins_cost order LO IO NR order [] ob [] [] eq_refl (inv_start ob OO SS CA)) as (ob1 & cur1 & costs1 & A & B).
  exists ob'. assert (Q : ob1 = ob') by (unfold inline_functions, pieces_dict in *; rewrite A in E; cbn [bind fst] in E; congruence). subst ob1. split; [unfold costed_inlining, pieces_dict in *; rewrite B; reflexivity|]. auto.
Qed.
Print Assumptions costs_do_not_change_inlining.

(** The check of line 169 is of no use: a function called once is inlined
    although its gas is infinite. *)
Theorem infinite_gas_kept_refuted : ~ (forall ins_cost ob order ob' f, object_ok ob -> ssa ob -> calls_ok ob -> inlining_order ob order ->
  In f (map fst (ob_functions ob)) -> leads_to_recursion ob f -> costed_inlining ins_cost order ob = Ok ob' -> In f (map fst (ob_functions ob'))).
Proof.
  intros H. destruct cycle_ok as (A & B & C). assert (IO : inlining_order cycle_object ["r_1"; "p_1"; "q_1"]) by (apply cycle_order; vm_compute; reflexivity).
  assert (E : exists ob', costed_inlining (fun _ => 3) ["r_1"; "p_1"; "q_1"] cycle_object = Ok ob' /\ mem "p_1" (map fst (ob_functions ob')) = false) by (eexists; split; vm_compute; reflexivity).
  destruct E as (ob' & E & N). assert (I : In "p_1" (map fst (ob_functions ob'))); [|apply mem_In in I; congruence].
  apply (H (fun _ => 3) cycle_object ["r_1"; "p_1"; "q_1"] ob' "p_1" A B C IO); [cbn; tauto| |exact E]. exists "p_1". split; [now left|]. apply cycle_calls; cbn; tauto.
Qed.
Print Assumptions infinite_gas_kept_refuted.

(* --- concrete cases --- *)
(** Functions that call each other have infinite gas, a plain one has not. *)
Example cycle_costs : object_ok cycle_object /\ literals_readable cycle_object /\ known_costs cycle_object [] /\ (exists n costs, estimate (fun _ => 3) (ob_functions cycle_object) "p_1" [] = Ok ((None, n), costs) /\ map fst costs = ["p_1"; "q_1"; "r_1"]).
Proof.
  split; [exact (proj1 cycle_ok)|]. split; [|split; [discriminate|eexists _, _; split; vm_compute; reflexivity]].
  intros c x R P. destruct R as (b & blk & B & H). assert (Q : In x ["0x00"; "0x01"; "0x02"]); [|cbn in Q; repeat (destruct Q as [<-|Q]; [vm_compute; discriminate|]); destruct Q].
  apply block_component in B as (g & K & L). apply lookup_In in L.
  assert (W : forallb (fun cg => forallb (fun kb => forallb (fun i => forallb (fun y => negb (prefix "0x" y) || mem y ["0x00"; "0x01"; "0x02"]) (li_ins i)) (cb_instrs (snd kb)) && match cb_cond (snd kb) with Some y => negb (prefix "0x" y) | None => true end) (cl_blocks (snd cg))) (JumpExamples.components cycle_object) = true) by (vm_compute; reflexivity).
  assert (KC : In (c, g) (JumpExamples.components cycle_object)) by (apply JumpExamples.component_In; exact K).
  rewrite forallb_forall in W. specialize (W _ KC). cbn [snd] in W. rewrite forallb_forall in W. specialize (W _ L). cbn [snd] in W. apply andb_true_iff in W as (W1 & W2). destruct H as [(i & I & X)|H].
  - rewrite forallb_forall in W1. specialize (W1 _ I). rewrite forallb_forall in W1. specialize (W1 _ X). rewrite P in W1. now apply mem_In.
  - rewrite H, P in W2. discriminate.
Qed.
Example plain_costs : exists c d costs, estimate (fun _ => 3) (ob_functions ObjExamples.count_object) "next_2" [] = Ok ((Some c, d), costs).
Proof. eexists _, _, _. vm_compute. reflexivity. Qed.
Example all_costs : object_costs (fun _ => 3) (ob_functions cycle_object) = Ok [("q_1", (None, 13)); ("r_1", (None, 5)); ("p_1", (None, 6))].
Proof. vm_compute. reflexivity. Qed.
Example plain_sum : exists g n, spends (fun _ => 3) (ob_functions ObjExamples.count_object) "next_2" (Some g, n) /\ 0 < g /\ 0 < n.
Proof.
  eexists _, _. split; [|].
  - eapply (cost_right (fun _ => 3) (ob_functions ObjExamples.count_object) 5 "next_2" {| cs_costs := []; cs_traversed := [] |}); [vm_compute; reflexivity|intros g d Q; discriminate Q|discriminate].
  - split; apply Nat.ltb_lt; vm_compute; reflexivity.
Qed.
