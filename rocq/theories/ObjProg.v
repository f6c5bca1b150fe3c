(** An object with jumps, tags and split calls: its program does what the object
    without these additions does. *)
From Verif Require Import Base Lexical SymExecModel MachineSpec DepsModel SpecSem UtilModel UtilProps UnifyProps LiveModel CfgModel CfgSpec CfgProps CombineProps
  JumpModel ProgSem JumpSpec JumpTrace JumpProofs JumpProps ObjSem ObjSim ObjSplit ObjErase ObjProgram.
From Verif Require AsmModel.
Open Scope string_scope. Open Scope list_scope.

(** ** Where the blocks come from *)
Section Origin.
Variable E : event -> list event.
Definition shown (b : cblock) : list event := flat_map E (map Do (cb_instrs b)).
Definition part_of (b b' : cblock) : Prop := exists pre post, shown b = pre ++ shown b' ++ post
  /\ ((cb_type b' = cb_type b /\ cb_cond b' = cb_cond b /\ post = [] /\ (successors b' = [] -> successors b = []))
      \/ (cb_type b' = "sub_block" /\ successors b' <> [])).
Lemma part_refl b : part_of b b.
Proof. exists [], []. rewrite app_nil_r. split; [reflexivity|]. left. auto. Qed.
Lemma part_trans b b1 b2 : part_of b b1 -> part_of b1 b2 -> part_of b b2.
Proof.
  intros (p & q & S & A) (p1 & q1 & S1 & A1). exists (p ++ p1), (q1 ++ q). split; [rewrite S, S1, <- !app_assoc; reflexivity|].
  destruct A1 as [(T1 & C1 & Q1 & U1)|A1]; [|right; exact A1]. destruct A as [(T & C & Q & U)|(T & U)].
  - left. subst. split; [congruence|]. split; [congruence|]. split; [reflexivity|auto].
  - right. split; [congruence|auto].
Qed.
Lemma edit_successors id b : successors (edit id b) = [] -> successors b = [].
Proof. unfold edit, successors, relist, relink. cbn. destruct (cb_jump_to b), (cb_falls_to b); cbn; try discriminate; auto. Qed.
Lemma changed_origin g g' : changed E g g' -> forall x b', lookup x (cl_blocks g') = Some b' -> exists y b, lookup y (cl_blocks g) = Some b /\ part_of b b'.
Proof.
  induction 1 as [g|g id i b g1 g2 C SP R NP _ IH|g x b b' g2 L D KL _ IH]; intros z bz LZ.
  - exists z, bz. split; [exact LZ|apply part_refl].
  - destruct (IH z bz LZ) as (y & b1 & L1 & P1). destruct (split_block_lookup g id i b C SP) as (g1' & R' & _ & LG & _). rewrite R in R'. injection R' as <-.
    rewrite LG in L1. destruct SP as [LB _ _ _ _]. assert (S : shown b = flat_map E (map Do (firstn (i + 1) (cb_instrs b))) ++ flat_map E (map Do (skipn (i + 1) (cb_instrs b)))).
    { unfold shown. rewrite <- flat_map_app, <- map_app, firstn_skipn. reflexivity. }
    destruct (String.eqb y (second_id id)); [|destruct (String.eqb y (first_id id)); [|destruct (String.eqb y id); [discriminate|]]].
    + injection L1 as <-. exists id, b. split; [exact LB|]. eapply part_trans; [|exact P1]. exists (flat_map E (map Do (firstn (i + 1) (cb_instrs b)))), [].
      rewrite app_nil_r. split; [exact S|]. left. repeat split. intros Q. exact Q.
    + injection L1 as <-. exists id, b. split; [exact LB|]. eapply part_trans; [|exact P1]. exists [], (flat_map E (map Do (skipn (i + 1) (cb_instrs b)))).
      split; [exact S|]. right. split; [reflexivity|]. discriminate.
    + destruct (lookup y (cl_blocks g)) as [by_|] eqn:LY; [|discriminate]. cbn in L1. injection L1 as <-. exists y, by_. split; [exact LY|]. eapply part_trans; [|exact P1].
      exists [], []. rewrite app_nil_r. split; [reflexivity|]. left. repeat split. apply edit_successors.
  - destruct (IH z bz LZ) as (y & b1 & L1 & P1). cbn [put_block cl_blocks] in L1. rewrite lookup_dict_set in L1. destruct (String.eqb_spec x y) as [<-|].
    + injection L1 as <-. exists x, b. split; [exact L|]. eapply part_trans; [|exact P1]. destruct D as (DJ & DF & DC & DI), KL as [KT KJ KF KFR KE].
      exists [], []. rewrite app_nil_r. split; [now symmetry|]. left. repeat split; auto. unfold successors. now rewrite DJ, DF.
    + exists y, b1. split; [exact L1|exact P1].
Qed.
End Origin.

(** ** Values *)
Section Prog.
Context {V Loc LV : Type}.
Variable sem : semantics V Loc LV.
Variable truth : V -> bool.
Variable blank : string -> V.
Notation W := (Loc -> LV).
Notation M := (machine_words sem truth blank).

Definition ext (e : vars (V:=V)) (e' : string -> V) : Prop := forall x v, e x = Some v -> e' x = v.
Definition clean (e : vars (V:=V)) : Prop := forall x, numeral x = true -> e x = None.
Definition readable (x : string) : Prop := startswith "0x" x = true -> py_int16 x <> None.

Lemma value_aval e e' x v : ext e e' -> readable x -> value M e x = Some v -> aval sem e' x = v.
Proof.
  intros X R. unfold value, aval. destruct (startswith "0x" x) eqn:S; [|apply X]. cbn. destruct (py_int16 x) eqn:P; [congruence|]. elim (R S P).
Qed.
Lemma values_avals e e' : ext e e' -> forall xs vs, (forall x, In x xs -> readable x) -> values M e xs = Some vs -> map (aval sem e') xs = vs.
Proof.
  intros X. induction xs as [|x xs IH]; intros vs R Q; cbn [values map] in *; [congruence|].
  destruct (value M e x) as [v|] eqn:Vx; [|discriminate]. destruct (values M e xs) as [vs'|] eqn:Vs; [|discriminate]. injection Q as <-.
  f_equal; [eapply value_aval; eauto; apply R; now left|]. apply IH; [intros; apply R; now right|reflexivity].
Qed.
Lemma assign_ext e e' : ext e e' -> forall xs vs, ext (assign e xs vs) (bind_vars e' xs vs).
Proof.
  intros X. induction xs as [|x xs IH]; intros vs; [exact X|]. destruct vs as [|v vs]; [exact X|]. intros y u. cbn [assign bind_vars].
  destruct (String.eqb y x); [congruence|]. apply IH.
Qed.
Lemma assign_ext_app e' : forall xs vs ys us, length xs = length vs -> ext (assign (fun _ => None) xs vs) (bind_vars e' (xs ++ ys) (vs ++ us)).
Proof.
  induction xs as [|x xs IH]; intros [|v vs] ys us L y u; try discriminate. injection L as L. cbn [assign app bind_vars].
  destruct (String.eqb y x); [congruence|]. now apply IH.
Qed.
Lemma assign_clean e : clean e -> forall xs vs, (forall x, In x xs -> numeral x = false) -> clean (assign e xs vs).
Proof.
  intros C. induction xs as [|x xs IH]; intros vs N; [exact C|]. destruct vs as [|v vs]; [exact C|]. intros y Y. cbn [assign].
  destruct (String.eqb_spec y x) as [->|]; [rewrite (N x) in Y by (now left); discriminate|]. apply IH; [intros; apply N; now right|exact Y].
Qed.
Lemma clean_nothing : clean (fun _ => None). Proof. intros x _. reflexivity. Qed.
Lemma bind_numeral e e' t vs : ext e e' -> clean e -> ext e (bind_vars e' [str_nat t] vs).
Proof.
  intros X C y u Q. destruct vs as [|v vs]; [now apply X|]. cbn [bind_vars]. destruct (String.eqb_spec y (str_nat t)) as [->|]; [|now apply X].
  rewrite (C _ (str_nat_numeral t)) in Q. discriminate.
Qed.
Lemma exec_app p q s : exec_cfg sem (p ++ q) s = exec_cfg sem q (exec_cfg sem p s).
Proof. unfold exec_cfg. now rewrite fold_left_app. Qed.

(** ** The two programs *)
Variable ob : cobject.
Variable tags : list (string * nat).
Variable rn : option string -> option string.
Notation fns := (map fst (ob_functions ob)).
Notation kept := (kept fns rn).
Notation kept_instrs := (kept_instrs fns rn).
Notation obe := (erase_object fns rn ob).
Notation prog := (program_of ob).
Hypothesis reserved : forall f, In f fns -> ~ In f ["PUSH [tag]"; "JUMP"; "JUMPI"; "functionReturn"; "PhiFunction"].
Hypothesis PL : forall c x b, block_at ob c x = Some b -> placed ob tags (rn c) b.
Hypothesis START : forall c g, blocks_at ob c = Some g -> cl_start g <> None.
Hypothesis KEPT : forall c x b j, block_at ob c x = Some b -> In j (kept_instrs c (cb_instrs b)) ->
  (forall o, In o (li_outs j) -> numeral o = false) /\ (forall v, In v (li_ins j) -> readable v)
  /\ (li_op j = "PhiFunction" -> exists o, li_outs j = [o]) /\ li_op j <> "invalid".
Hypothesis COND : forall c x b v, block_at ob c x = Some b -> cb_type b = "conditional" -> cb_cond b = Some v -> readable v.
Hypothesis EXIT : forall c x b pre j, block_at ob c x = Some b -> cb_type b = "mainExit" \/ successors b = [] ->
  kept_instrs c (cb_instrs b) = pre ++ [j] -> In (li_op j) fns -> rn (Some (li_op j)) = None.
Hypothesis ARGS : forall f k, lookup f (ob_functions ob) = Some k ->
  fn_args k = match rn (Some f) with Some r => [r] | None => [] end ++ own_args rn f (fn_args k) /\ forall x, In x (own_args rn f (fn_args k)) -> numeral x = false.

Lemma not_function op : In op ["PUSH [tag]"; "JUMP"; "JUMPI"; "functionReturn"; "PhiFunction"] -> lookup op (ob_functions ob) = None.
Proof. intros I. destruct (lookup op (ob_functions ob)) eqn:L; [|reflexivity]. elim (reserved op (lookup_In_key _ _ _ L) I). Qed.
Lemma prog_function f : lookup f (g_functions prog) = option_map (fun k => pcomponent_of (rev (fn_args k)) (fn_blocks k)) (lookup f (ob_functions ob)).
Proof. exact (lookup_map_key (fun _ k => pcomponent_of (rev (fn_args k)) (fn_blocks k)) f (ob_functions ob)). Qed.
Lemma prog_block c x : block_of prog c x = option_map (pblock_of) (block_at ob c x).
Proof.
  unfold block_of, block_at, component_of. destruct c as [f|]; cbn [blocks_at].
  - rewrite prog_function. destruct (lookup f (ob_functions ob)) as [k|]; [|reflexivity]. exact (lookup_map_key (fun _ => pblock_of) x (cl_blocks (fn_blocks k))).
  - exact (lookup_map_key (fun _ => pblock_of) x (cl_blocks (ob_main ob))).
Qed.

(** *** Instructions that stay *)
Lemma kept_cases c i : kept c i = [] /\ In (li_op i) ["PUSH [tag]"; "JUMP"; "JUMPI"]
  \/ ~ In (li_op i) ["PUSH [tag]"; "JUMP"; "JUMPI"] /\ exists j, kept c i = [j] /\ li_op j = li_op i /\ li_outs j = li_outs i
     /\ (~ In (li_op i) fns -> li_op i <> "functionReturn" -> j = i)
     /\ (In (li_op i) fns -> li_ins j = filter (fun x => negb (numeral x)) (li_ins i))
     /\ (li_op i = "functionReturn" -> li_ins j = filter (fun x => negb (opt_eqb (Some x) (rn c))) (li_ins i)).
Proof.
  unfold ObjErase.kept, before. destruct (mem (li_op i) ["PUSH [tag]"; "JUMP"; "JUMPI"]) eqn:M1; [left; split; [reflexivity|now apply mem_In]|]. right.
  apply mem_false in M1. split; [exact M1|]. destruct (mem (li_op i) fns) eqn:M2.
  - apply mem_In in M2. eexists. split; [reflexivity|]. repeat split; auto; try (intros; contradiction). intros Q. elim (reserved _ M2). rewrite Q. cbn. tauto.
  - apply mem_false in M2. destruct (String.eqb_spec (li_op i) "functionReturn") as [Q|N].
    + eexists. split; [reflexivity|]. repeat split; auto; intros; contradiction.
    + eexists. split; [reflexivity|]. repeat split; auto; intros; contradiction.
Qed.
Lemma kept_app c l l' : kept_instrs c (l ++ l') = kept_instrs c l ++ kept_instrs c l'.
Proof. apply flat_map_app. Qed.
Lemma kept_none c l : kept_instrs c l = [] -> forall z, In z l -> kept c z = [].
Proof.
  induction l as [|i l IH]; intros Q z I; [destruct I|]. cbn in Q. apply app_eq_nil in Q as (Q1 & Q2). destruct I as [<-|I]; auto.
Qed.
Lemma kept_first c l j rest : kept_instrs c l = j :: rest -> exists l1 i l2, l = l1 ++ i :: l2 /\ (forall z, In z l1 -> kept c z = []) /\ kept c i = [j] /\ rest = kept_instrs c l2.
Proof.
  induction l as [|i l IH]; intros Q; [discriminate|]. cbn [ObjErase.kept_instrs flat_map] in Q. fold (kept_instrs c l) in Q. destruct (kept_cases c i) as [(K & _)|(_ & j' & K & _)]; rewrite K in Q.
  - destruct (IH Q) as (l1 & i' & l2 & -> & S & K' & R). exists (i :: l1), i', l2. split; [reflexivity|]. split; [|auto]. intros z [<-|I]; auto.
  - cbn in Q. injection Q as -> Q. exists [], i, l. split; [reflexivity|]. split; [intros z []|]. split; [exact K|now symmetry].
Qed.

(** *** The parts of a block *)
Definition tail (b : cblock) : list linstr := match cb_split b with Some i => [i] | None => [] end.
Definition not_phi (i : linstr) : bool := negb (is_phi_instr i).
Lemma not_phi_true i : li_op i <> "PhiFunction" -> not_phi i = true.
Proof. intros N. unfold not_phi, is_phi_instr. destruct (String.eqb_spec (li_op i) "PhiFunction"); [contradiction|reflexivity]. Qed.
Lemma leaving_not_phi op : In op (leaving ++ fns) -> op <> "PhiFunction".
Proof.
  intros I ->. apply in_app_iff in I as [I|I]; [cbn in I; repeat (destruct I as [I|I]; [discriminate|]); exact I|]. elim (reserved _ I). cbn. tauto.
Qed.
Lemma split_last c x b i : block_at ob c x = Some b -> cb_split b = Some i -> exists pre, cb_instrs b = pre ++ [i] /\ In (li_op i) (leaving ++ fns).
Proof.
  intros B S. pose proof (pl_split _ _ _ _ (PL c x b B)) as P. rewrite S in P. destruct (snoc_cases (cb_instrs b)) as [Q|(l & z & Q)]; rewrite Q in P; [discriminate|].
  rewrite rev_app_distr in P. cbn [rev app] in P. destruct (mem (li_op z) (leaving ++ fns)) eqn:Mz; [|discriminate]. injection P as ->. exists l. split; [exact Q|now apply mem_In].
Qed.
Lemma unsplit_last c x b pre i : block_at ob c x = Some b -> cb_split b = None -> cb_instrs b = pre ++ [i] -> ~ In (li_op i) (leaving ++ fns).
Proof.
  intros B S Q. pose proof (pl_split _ _ _ _ (PL c x b B)) as P. rewrite S, Q, rev_app_distr in P. cbn [rev app] in P. destruct (mem (li_op i) (leaving ++ fns)) eqn:Mz; [discriminate|]. now apply mem_false.
Qed.
Lemma body_tail c x b : block_at ob c x = Some b -> filter not_phi (cb_instrs b) = to_synthesize b ++ tail b.
Proof.
  intros B. unfold to_synthesize, tail. fold not_phi. destruct (cb_split b) as [i|] eqn:S; [|now rewrite app_nil_r].
  destruct (split_last c x b i B S) as (pre & Q & I). rewrite Q, removelast_last, filter_app. cbn [filter]. rewrite (not_phi_true i) by (now apply leaving_not_phi). reflexivity.
Qed.
Lemma body_inner c x b i : block_at ob c x = Some b -> In i (to_synthesize b) ->
  ~ In (li_op i) leaving /\ ~ In (li_op i) fns /\ (li_op i = "PUSH [tag]" -> exists t, i = push_tag t) /\ In i (cb_instrs b).
Proof.
  intros B I. pose proof (PL c x b B) as P. unfold to_synthesize in I. apply filter_In in I as (I & _).
  assert (H : In i (removelast (cb_instrs b)) \/ (cb_split b = None /\ exists pre, cb_instrs b = pre ++ [i])).
  { destruct (cb_split b); [now left|]. destruct (snoc_cases (cb_instrs b)) as [Q|(l & z & Q)]; rewrite Q in I |- *; [destruct I|]. rewrite removelast_last.
    apply in_app_iff in I as [I|[->|[]]]; [now left|right; split; [reflexivity|now exists l]]. }
  destruct H as [H|(S & pre & Q)].
  - destruct (pl_inner _ _ _ _ P i H) as (A & T). split; [exact A|]. split; [|split; [exact T|now apply removelast_In]]. intros F.
    destruct (key_lookup _ _ F) as (k & L). destruct (snoc_cases (cb_instrs b)) as [Q|(l & z & Q)]; rewrite Q in H; [destruct H|]. rewrite removelast_last in H.
    apply in_split in H as (l1 & l2 & ->). rewrite <- app_assoc in Q. cbn [app] in Q. destruct (pl_calls _ _ _ _ P l1 i (l2 ++ [z]) k Q L) as (Z & _). destruct l2; discriminate.
  - pose proof (unsplit_last c x b pre i B S Q) as N. split; [intros Z; apply N, in_app_iff; now left|]. split; [intros Z; apply N, in_app_iff; now right|].
    split; [intros T; elim (proj1 (pl_last _ _ _ _ P pre i Q) T)|rewrite Q; apply in_app_iff; right; now left].
Qed.
Lemma kept_phi c i : li_op i = "PhiFunction" -> kept c i = [i].
Proof.
  intros Q. destruct (kept_cases c i) as [(_ & I)|(_ & j & K & _ & _ & S & _)]; [rewrite Q in I; cbn in I; intuition discriminate|]. rewrite K. f_equal. apply S; rewrite Q; [|discriminate].
  intros F. elim (reserved _ F). cbn. tauto.
Qed.
Lemma phis_of_kept c l : phis_first l -> phis_of (kept_instrs c l) = (filter is_phi_instr l, kept_instrs c (filter not_phi l)).
Proof.
  intros (ps & os & -> & P & O). rewrite !filter_app.
  assert (FP : filter is_phi_instr ps = ps /\ filter not_phi ps = []).
  { clear -P. induction ps as [|i ps IH]; [auto|]. destruct IH as (A & B); [intros; apply P; now right|]. assert (PI : is_phi_instr i = true) by (unfold is_phi_instr; rewrite (P i) by (now left); reflexivity).
    assert (NI : not_phi i = false) by (unfold not_phi; now rewrite PI). cbn [filter]. rewrite PI, NI. now rewrite A, B. }
  assert (FO : filter is_phi_instr os = [] /\ filter not_phi os = os).
  { clear -O. induction os as [|i os IH]; [auto|]. destruct IH as (A & B); [intros; apply O; now right|]. cbn [filter]. rewrite (not_phi_true i) by (apply O; now left).
    
    assert (PI : is_phi_instr i = false) by (unfold is_phi_instr; destruct (String.eqb_spec (li_op i) "PhiFunction") as [Q|]; [elim (O i (or_introl eq_refl) Q)|reflexivity]). rewrite PI. now rewrite A, B. }
  destruct FP as (-> & ->), FO as (-> & ->). rewrite app_nil_r. cbn [app]. induction ps as [|i ps IH].
  - cbn [app]. destruct (kept_instrs c os) as [|j l] eqn:Q; [reflexivity|]. cbn [phis_of]. destruct (String.eqb_spec (li_op j) "PhiFunction") as [J|]; [|reflexivity].
    assert (Ij : In j (kept_instrs c os)) by (rewrite Q; now left). apply in_flat_map in Ij as (i & Ii & Ij). rewrite (kept_op _ _ _ _ _ Ij) in J. elim (O i Ii J).
  - cbn [app ObjErase.kept_instrs flat_map]. fold (kept_instrs c (ps ++ os)). rewrite kept_phi by (apply P; now left). cbn [app phis_of]. rewrite (P i) by now left. cbn [String.eqb Ascii.eqb Bool.eqb].
    rewrite IH; [reflexivity|intros; apply P; now right].
Qed.

(** *** Arrival *)
Lemma index_same x l : Base.index_of x l = LiveModel.index_of x l.
Proof. induction l as [|y l IH]; [reflexivity|]. cbn. rewrite IH. reflexivity. Qed.
Lemma phi_match e e' k : ext e e' -> forall ps vs, (forall i, In i ps -> (exists o, li_outs i = [o]) /\ forall v, In v (li_ins i) -> readable v) -> phi_values M e k ps = Some vs ->
  let pairs := flat_map (fun i => map (fun o => (o, li_ins i)) (li_outs i)) ps in
  map fst pairs = flat_map li_outs ps /\ exists args,
    fold_right (fun p r => match nth_error (snd p) k, r with Some a, Some l => Some (a :: l) | _, _ => None end) (Some []) pairs = Some args /\ map (aval sem e') args = vs.
Proof.
  intros X. induction ps as [|i ps IH]; intros vs H Q; cbn [phi_values flat_map] in *.
  - injection Q as <-. split; [reflexivity|]. exists []. auto.
  - destruct (H i (or_introl eq_refl)) as ((o & O) & R). destruct (nth_error (li_ins i) k) as [a|] eqn:N; [|discriminate].
    destruct (value M e a) as [v|] eqn:Va; [|discriminate]. destruct (phi_values M e k ps) as [vs'|] eqn:Q'; [|discriminate]. injection Q as <-.
    destruct (IH vs' (fun j I => H j (or_intror I)) eq_refl) as (A & args & F & MA). rewrite O. cbn [map app fst]. rewrite A. split; [reflexivity|].
    exists (a :: args). cbn [fold_right snd]. rewrite N, F. split; [reflexivity|]. cbn [map]. rewrite MA. f_equal. eapply value_aval; eauto. apply R. eapply nth_error_In; eauto.
Qed.
Lemma arrive_enter c x b from e e' rest e1 : block_at ob c x = Some b -> ext e e' -> clean e -> arrive M (erase_block fns rn c b) from e = Some (rest, e1) ->
  rest = kept_instrs c (to_synthesize b ++ tail b) /\ exists e1', enter sem (pblock_of b) from e' = Some e1' /\ ext e1 e1' /\ clean e1.
Proof.
  intros B X C A. unfold arrive in A. cbn [erase_block set_instrs cb_instrs cb_entries] in A. rewrite (phis_of_kept c _ (pl_phis _ _ _ _ (PL c x b B))), (body_tail c x b B) in A.
  unfold enter, phi_args. cbn [pblock_of p_phis p_entries]. unfold phi_pairs. set (ps := filter is_phi_instr (cb_instrs b)) in *.
  assert (PH : forall i, In i ps -> (forall o, In o (li_outs i) -> numeral o = false) /\ (exists o, li_outs i = [o]) /\ forall v, In v (li_ins i) -> readable v).
  { intros i I. apply filter_In in I as (I & P). unfold is_phi_instr in P. apply String.eqb_eq in P. destruct (KEPT c x b i B) as (K1 & K2 & K3 & _); [|auto].
    apply in_flat_map. exists i. split; [exact I|]. rewrite kept_phi by exact P. now left. }
  destruct ps as [|i ps].
  - injection A as <- <-. split; [reflexivity|]. exists e'. cbn. auto.
  - destruct from as [f|]; [|discriminate]. destruct (index_of f (cb_entries b)) as [k|] eqn:IX; [|discriminate].
    destruct (phi_values M e k (i :: ps)) as [vs|] eqn:PV; [|discriminate]. cbn [option_map] in A. injection A as <- <-. split; [reflexivity|].
    destruct (phi_match e e' k X (i :: ps) vs (fun j J => proj2 (PH j J)) PV) as (F & args & FR & MA). cbv zeta in F, FR.
    set (pairs := flat_map (fun i0 => map (fun o => (o, li_ins i0)) (li_outs i0)) (i :: ps)) in *.
    assert (exists p l, pairs = p :: l) as (p & l & PE).
    { unfold pairs. destruct (PH i (or_introl eq_refl)) as (_ & (o & O) & _). cbn [flat_map]. rewrite O. cbn [map app]. eauto. }
    rewrite index_same, IX. rewrite PE in FR, F |- *. rewrite FR. cbn [option_map]. eexists. split; [reflexivity|]. rewrite F, MA. split; [apply assign_ext, X|].
    apply assign_clean; [exact C|]. intros y Y. change (In y (flat_map li_outs (i :: ps))) in Y. apply in_flat_map in Y as (j & J & Y). exact (proj1 (PH j J) y Y).
Qed.

(** *** Silent instructions *)
Lemma skip_silent c x b e : block_at ob c x = Some b -> clean e -> forall l e' w, (forall z, In z l -> kept c z = [] /\ In z (to_synthesize b)) -> ext e e' ->
  exists e2, exec_cfg sem (map cins_of l) (e', w) = (e2, w) /\ ext e e2.
Proof.
  intros B C. induction l as [|i l IH]; intros e' w S X; [exists e'; auto|].
  destruct (S i (or_introl eq_refl)) as (K & I). destruct (body_inner c x b i B I) as (NL & _ & T & _).
  destruct (kept_cases c i) as [(_ & IO)|(_ & j & K' & _)]; [|congruence]. destruct IO as [IO|[IO|[IO|[]]]]; [|elim NL; rewrite <- IO; cbn; tauto|elim NL; rewrite <- IO; cbn; tauto].
  destruct (T (eq_sym IO)) as (t & ->). cbn [map]. unfold exec_cfg. cbn [fold_left]. 
  assert (Q : exists vs, exec_cins sem (cins_of (push_tag t)) (e', w) = (bind_vars e' [str_nat t] vs, w)).
  { unfold exec_cins, cfg_denote. cbn [cins_of push_tag c_op c_in c_out li_op li_ins li_outs String.eqb Ascii.eqb Bool.eqb map]. destruct (py_int (str_nat t)); eexists; reflexivity. }
  destruct Q as (vs & ->). apply IH; [intros; apply S; now right|now apply bind_numeral].
Qed.

(** *** The relation *)
Inductive frames_ok : option string -> list (suspended V) -> list (frame V) -> Prop :=
| fo_nil c : frames_ok c [] []
| fo_cons s fr calls frames blk i : block_at ob (sp_comp s) (sp_block s) = Some blk -> cb_split blk = Some i -> sp_outs s = li_outs i -> sp_rest s = [] ->
    fr_comp fr = sp_comp s -> fr_block fr = sp_block s -> ext (sp_vars s) (fr_env fr) -> clean (sp_vars s) -> (forall o, In o (li_outs i) -> numeral o = false) ->
    (rn (Some (li_op i)) <> None -> exists next, cb_falls_to blk = Some next /\ cb_jump_to blk = None /\ cb_type blk <> "mainExit" /\ cb_type blk <> "conditional") ->
    frames_ok (sp_comp s) calls frames -> frames_ok (Some (li_op i)) (s :: calls) (fr :: frames).

Inductive rel : state V W -> config V Loc LV -> Prop :=
| rel_in c b e w calls from e0 w0 frames blk before_ todo e1 e2 : block_at ob c b = Some blk -> enter sem (pblock_of blk) from e0 = Some e1 ->
    to_synthesize blk = before_ ++ todo -> exec_cfg sem (map cins_of before_) (e1, w0) = (e2, w) -> ext e e2 -> clean e -> frames_ok c calls frames ->
    rel (Doing c b (kept_instrs c (todo ++ tail blk)) e w calls) (Run c from b e0 w0 frames)
| rel_back c b e w calls t blk next e' frames : block_at ob c b = Some blk -> cb_falls_to blk = Some next -> cb_jump_to blk = None -> cb_type blk <> "mainExit" -> cb_type blk <> "conditional" ->
    cstep sem truth blank prog t = Some (Run c (Some b) next e' w frames) -> ext e e' -> clean e -> frames_ok c calls frames ->
    rel (Doing c b [] e w calls) t
| rel_done op args w : rel (Done op args w) (Halt op args w).
Definition measure (s : state V W) : nat := match s with Doing _ _ rest _ _ _ => length rest | Done _ _ _ => 0 end.

Lemma goto_rel c from to e e' w calls frames s : goto M obe c from (Some to) e w calls = Some s -> ext e e' -> clean e -> frames_ok c calls frames -> rel s (Run c from to e' w frames).
Proof.
  intros G X C F. unfold goto in G. rewrite erase_block_at in G. destruct (block_at ob c to) as [b|] eqn:B; [|discriminate]. cbn [option_map] in G.
  destruct (arrive M (erase_block fns rn c b) from e) as [[rest e1]|] eqn:A; [|discriminate]. cbn [option_map fst snd] in G. injection G as <-.
  destruct (arrive_enter c to b from e e' rest e1 B X C A) as (-> & e1' & EN & X1 & C1).
  eapply (rel_in c to e1 w calls from e' w frames b [] (to_synthesize b) e1' e1'); eauto.
Qed.

Notation cstep := (cstep sem truth blank prog).
Definition moves (m : nat) (t t' : config V Loc LV) : Prop := iter cstep m t = Some t'.

(** *** One step *)
Lemma sim_step s s' t : rel s t -> ostep M obe s = Some s' -> exists m t', iter cstep m t = Some t' /\ rel s' t' /\ (m = 0 -> measure s' < measure s).
Proof.
  intros H ST. destruct H as [c b e w calls from e0 w0 frames blk done todo e1 e2 B EN BD EX X C F|c b e w calls t blk next e' frames B FT JT NM NC CS X C F|]; [|cbn in ST|discriminate].
  2:{ rewrite erase_block_at, B in ST. cbn [option_map erase_block set_instrs cb_type] in ST. destruct (String.eqb_spec (cb_type blk) "mainExit"); [contradiction|].
      unfold next_block in ST. cbn [erase_block set_instrs cb_type cb_jump_to cb_falls_to] in ST. destruct (String.eqb_spec (cb_type blk) "conditional"); [contradiction|]. rewrite JT, FT in ST.
      exists 1, (Run c (Some b) next e' w frames). cbn [iter]. rewrite CS. split; [reflexivity|]. split; [eapply goto_rel; eauto|discriminate]. }
  assert (TS : forall z, In z todo -> In z (to_synthesize blk)) by (intros z I; rewrite BD; apply in_app_iff; now right).
  (* the step of the program, once the silent instructions are done *)
  assert (CSTEP : forall e3, exec_cfg sem (map cins_of todo) (e2, w) = (e3, w) -> enter sem (pblock_of blk) from e0 = Some e1 /\ exec_cfg sem (p_instrs (pblock_of blk)) (e1, w0) = (e3, w)).
  { intros e3 Q. split; [exact EN|]. cbn [pblock_of p_instrs]. rewrite BD, map_app, exec_app, EX. exact Q. }
  pose proof (PL c b blk B) as P.
  destruct (kept_instrs c (todo ++ tail blk)) as [|j rest] eqn:K.
  - (* end of the block *)
    rewrite kept_app in K. apply app_eq_nil in K as (K1 & K2). 
    destruct (skip_silent c b blk e B C todo e2 w) as (e3 & Q3 & X3); [intros z I; split; [exact (kept_none c todo K1 z I)|auto]|exact X|].
    destruct (CSTEP e3 Q3) as (_ & EB). cbn [ostep] in ST. rewrite erase_block_at, B in ST. cbn [option_map erase_block set_instrs cb_type] in ST.
    assert (GO : forall next, iter cstep 1 (Run c from b e0 w0 frames) = Some (Run c (Some b) next e3 w frames) -> goto M obe c (Some b) (Some next) e w calls = Some s' ->
      exists m t', iter cstep m (Run c from b e0 w0 frames) = Some t' /\ rel s' t' /\ (m = 0 -> measure s' < measure (Doing c b [] e w calls))).
    { intros next I G. eexists 1, _. split; [exact I|]. split; [eapply goto_rel; eauto|discriminate]. }
    unfold next_block in ST. cbn [erase_block set_instrs cb_type cb_jump_to cb_falls_to cb_cond] in ST.
    unfold tail in K2. destruct (cb_split blk) as [i|] eqn:SP.
    + destruct (split_last c b blk i B SP) as (pre & IQ & IL). destruct (pl_last _ _ _ _ P pre i IQ) as (NPU & _ & TJ & TI). cbn [ObjErase.kept_instrs flat_map] in K2. rewrite app_nil_r in K2.
      destruct (kept_cases c i) as [(_ & IO)|(_ & j & K' & _)]; [|congruence]. destruct IO as [IO|[IO|[IO|[]]]]; [elim NPU; now symmetry| |].
      * specialize (TJ (eq_sym IO)). rewrite TJ in ST. cbn [String.eqb Ascii.eqb Bool.eqb] in ST. destruct (pl_jump _ _ _ _ P TJ) as (j & t & J & _). rewrite J in ST. apply (GO j); [|exact ST].
        cbn [iter]. unfold ProgSem.cstep. rewrite prog_block, B. cbn [option_map]. rewrite EN, EB. cbn [pblock_of p_last]. rewrite SP. cbn [option_map cins_of c_op]. rewrite <- IO, prog_function, not_function by (cbn; tauto).
        cbn [option_map String.eqb Ascii.eqb Bool.eqb pblock_of p_jump_to]. rewrite J. reflexivity.
      * specialize (TI (eq_sym IO)). rewrite TI in ST. cbn [String.eqb Ascii.eqb Bool.eqb] in ST. destruct (pl_jumpi _ _ _ _ P TI) as (j & f & cd & t & J & FL & CD & _ & _ & pre' & IQ' & SP'). rewrite SP in SP'. injection SP' as SP'.
        rewrite CD in ST. destruct (value M e cd) as [v|] eqn:VC; [|discriminate]. pose proof (value_aval e e3 cd v X3 (COND c b blk cd B TI CD) VC) as AV.
        assert (I1 : iter cstep 1 (Run c from b e0 w0 frames) = Some (Run c (Some b) (if truth v then j else f) e3 w frames)).
        { cbn [iter]. unfold ProgSem.cstep. rewrite prog_block, B. cbn [option_map]. rewrite EN, EB. cbn [pblock_of p_last]. rewrite SP. cbn [option_map cins_of c_op c_in]. rewrite <- IO, prog_function, not_function by (cbn; tauto).
          cbn [option_map String.eqb Ascii.eqb Bool.eqb pblock_of p_jump_to p_falls_to]. rewrite SP'. cbn [li_ins]. rewrite AV, J, FL. destruct (truth v); reflexivity. }
        rewrite J, FL in ST. cbn [machine_words o_truth] in ST. apply (GO _ I1). destruct (truth v); exact ST.
    + assert (CS : cstep (Run c from b e0 w0 frames) = if String.eqb (cb_type blk) "mainExit" then Some (Halt "STOP" [] w) else go c b (cb_falls_to blk) e3 w frames).
      { unfold ProgSem.cstep. rewrite prog_block, B. cbn [option_map]. rewrite EN, EB. cbn [pblock_of p_last p_type p_falls_to]. rewrite SP. reflexivity. }
      assert (NU : cb_type blk <> "unconditional").
      { intros T. destruct (pl_jump _ _ _ _ P T) as (? & ? & _ & _ & _ & _ & ? & _ & SQ). congruence. }
      assert (NC : cb_type blk <> "conditional").
      { intros T. destruct (pl_jumpi _ _ _ _ P T) as (? & ? & ? & ? & _ & _ & _ & _ & _ & ? & _ & SQ). congruence. }
      destruct (String.eqb_spec (cb_type blk) "mainExit") as [T|NT].
      * injection ST as <-. exists 1, (Halt "STOP" [] w). cbn [iter]. rewrite CS. split; [reflexivity|]. split; [constructor|discriminate].
      * destruct (String.eqb_spec (cb_type blk) "conditional"); [contradiction|]. rewrite (pl_other _ _ _ _ P NU NC) in ST.
        destruct (cb_falls_to blk) as [next|] eqn:FL; [|discriminate]. apply (GO next); [|exact ST]. cbn [iter]. rewrite CS. reflexivity.
  - (* an instruction *)
    destruct (kept_first c _ j rest K) as (l1 & i & l2 & LQ & SL & KI & ->).
    destruct (kept_cases c i) as [(K' & _)|(NJ & j' & K' & OJ & OU & SAME & INF & INR)]; [congruence|]. rewrite KI in K'. injection K' as <-.
    assert (KJ : In j (kept_instrs c (cb_instrs blk))).
    { assert (Z : In i (filter not_phi (cb_instrs blk))).
      { rewrite (body_tail c b blk B), BD, <- app_assoc. apply in_app_iff. right. rewrite LQ. apply in_app_iff. right. now left. }
      apply filter_In in Z as (Z & _). apply in_flat_map. exists i. split; [exact Z|]. rewrite KI. now left. }
    destruct (KEPT c b blk j B KJ) as (KO & KR & _ & KINV).
    cbn [ostep] in ST. destruct (values M e (li_ins j)) as [args|] eqn:VA; [|discriminate].
    rewrite erase_lookup in ST. rewrite OJ in *.
    (* is it in the body or the last one? *)
    assert (POS : (exists t2, todo = l1 ++ i :: t2 /\ l2 = t2 ++ tail blk) \/ (todo = l1 /\ cb_split blk = Some i /\ l2 = [])).
    { unfold tail in *. destruct (cb_split blk) as [z|].
      - destruct (snoc_cases l2) as [->|(t2 & z' & ->)].
        + right. apply app_inj_tail in LQ as (-> & ->). auto.
        + left. change (i :: t2 ++ [z']) with ((i :: t2) ++ [z']) in LQ. rewrite app_assoc in LQ. apply app_inj_tail in LQ as (-> & ->). exists t2. auto.
      - left. rewrite app_nil_r in LQ. exists l2. rewrite app_nil_r. auto. }
    destruct POS as [(t2 & TD & ->)|(-> & SP & ->)].
    + (* an ordinary instruction *)
      assert (IT : In i (to_synthesize blk)) by (apply TS; rewrite TD; apply in_app_iff; right; now left).
      destruct (body_inner c b blk i B IT) as (NL & NF & _ & _).
      assert (LN : lookup (li_op i) (ob_functions ob) = None) by (now apply lookup_None). rewrite LN in ST. cbn [option_map] in ST.
      assert (NR : li_op i <> "functionReturn") by (intros Q; apply NL; rewrite Q; cbn; tauto). destruct (String.eqb_spec (li_op i) "functionReturn"); [contradiction|].
      specialize (SAME NF NR). subst j.
      assert (NS : mem (li_op i) stopping = false).
      { apply mem_false. intros Q. unfold stopping in Q. cbn [In] in Q. destruct Q as [Q|[Q|[Q|[Q|[Q|[]]]]]]; try (apply NL; rewrite <- Q; cbn; tauto). elim KINV. now symmetry. }
      rewrite NS in ST. destruct (skip_silent c b blk e B C l1 e2 w) as (e3 & Q3 & X3); [intros z I; split; [auto|apply TS; rewrite TD; apply in_app_iff; now left]|exact X|].
      assert (AV : map (aval sem e3) (li_ins i) = args) by (eapply values_avals; eauto).
      cbn [machine_words o_do] in ST. destruct (cfg_denote sem (cins_of i) args w) as [vs w'] eqn:DN. injection ST as <-.
      exists 0, (Run c from b e0 w0 frames). split; [reflexivity|]. split; [|intros _; cbn [measure length]; lia].
      eapply (rel_in c b _ w' calls from e0 w0 frames blk (done ++ l1 ++ [i]) t2 e1 (bind_vars e3 (li_outs i) vs)); eauto.
      * rewrite BD, TD, <- !app_assoc. reflexivity.
      * rewrite !map_app, !exec_app, EX, Q3. cbn [map]. unfold exec_cfg. cbn [fold_left]. unfold exec_cins. cbn [cins_of c_in c_out]. rewrite AV. fold (cins_of i). rewrite DN. reflexivity.
      * now apply assign_ext.
      * now apply assign_clean.
    + (* the last instruction *)
      destruct (split_last c b blk i B SP) as (pre & IQ & IL). 
      destruct (skip_silent c b blk e B C l1 e2 w) as (e3 & Q3 & X3); [intros z I; split; [auto|auto]|exact X|]. destruct (CSTEP e3 Q3) as (_ & EB).
      assert (AV : map (aval sem e3) (li_ins j) = args) by (eapply values_avals; eauto).
      assert (CS : cstep (Run c from b e0 w0 frames) = match lookup (li_op i) (g_functions prog) with
        | Some k => let args := map (aval sem e3) (tl (li_ins i)) in
            if (length (k_params k) <=? length args)%nat then
              Some (Run (Some (li_op i)) None (k_start k) (bind_vars blank (k_params k) args) w ({| fr_comp := c; fr_block := b; fr_env := e3 |} :: frames)) else None
        | None => if String.eqb (li_op i) "functionReturn" then
                        match frames with
                        | fr :: frames' =>
                            match block_of prog (fr_comp fr) (fr_block fr) with
                            | Some caller =>
                                let values := map (aval sem e3) (tl (li_ins i)) in
                                let outs := match p_last caller with Some call => c_out call | None => [] end in
                                if (length outs =? length values)%nat then
                                  go (fr_comp fr) (fr_block fr) (p_falls_to caller) (bind_vars (fr_env fr) outs values) w frames'
                                else None
                            | None => None
                            end
                        | [] => None
                        end
                  else if String.eqb (li_op i) "JUMP" then go c b (cb_jump_to blk) e3 w frames
                      else if String.eqb (li_op i) "JUMPI" then
                        match li_ins i with
                        | [_; cond] => go c b (if truth (aval sem e3 cond) then cb_jump_to blk else cb_falls_to blk) e3 w frames
                        | _ => None
                        end
                      else Some (Halt (AsmModel.upper (li_op i)) (map (aval sem e3) (li_ins i)) w) end).
      { unfold ProgSem.cstep. rewrite prog_block, B. cbn [option_map]. rewrite EN, EB. cbn [pblock_of p_last p_type p_falls_to p_jump_to]. rewrite SP. reflexivity. }
      rewrite prog_function in CS. destruct (lookup (li_op i) (ob_functions ob)) as [k|] eqn:LK; cbn [option_map] in ST, CS.
      * (* call *)
        assert (FI : In (li_op i) fns) by exact (lookup_In_key _ _ _ LK). specialize (INF FI). cbn [fn_args fn_blocks] in ST.
        destruct (Nat.eqb_spec (length (own_args rn (li_op i) (fn_args k))) (length args)) as [LE|]; [|discriminate].
        destruct (pl_calls _ _ _ _ P pre i [] k IQ LK) as (_ & _ & s0 & t0 & vs & back & CST & _ & _ & IN & NV & BK).
        assert (BN : forall v, In v back -> numeral v = true).
        { intros v Iv. destruct (successors blk) as [|n ns]; [subst; destruct Iv|]. destruct BK as (_ & t' & _ & _ & ->). destruct Iv as [<-|[]]. apply str_nat_numeral. }
        assert (IJ : li_ins j = vs).
        { rewrite INF, IN. cbn [filter]. rewrite str_nat_numeral. cbn [negb]. rewrite filter_app, (filter_all _ vs) by (intros v Iv; now rewrite (NV v Iv)).
          replace (filter (fun x => negb (numeral x)) back) with (@nil string); [apply app_nil_r|]. symmetry. clear -BN. induction back as [|v l IH]; [reflexivity|]. cbn [filter]. rewrite (BN v) by now left. apply IH. intros; apply BN; now right. }
        rewrite IJ in AV. destruct (ARGS (li_op i) k LK) as (AQ & AN).
        assert (SU : rn (Some (li_op i)) <> None -> cb_type blk <> "mainExit" /\ successors blk <> []).
        { intros RN. assert (Z : ~ (cb_type blk = "mainExit" \/ successors blk = [])); [|tauto]. intros Z. apply RN. rewrite <- OJ. apply (EXIT c b blk (kept_instrs c pre) j B Z); [|now rewrite OJ].
          rewrite IQ, kept_app. f_equal. cbn. rewrite app_nil_r. exact KI. }
        assert (LP : (length (rev (fn_args k)) <= length (map (aval sem e3) (tl (li_ins i))))%nat).
        { rewrite rev_length, map_length, IN. cbn [tl]. rewrite app_length, AQ, app_length, LE. rewrite <- AV, map_length.
          destruct (rn (Some (li_op i))) as [r|]; [|cbn; lia]. destruct SU as (_ & SU); [discriminate|]. destruct (successors blk) as [|n ns]; [congruence|]. destruct BK as (_ & t' & _ & _ & ->). cbn [length]. lia. }
        cbn [pcomponent_of k_params k_start] in CS. rewrite (proj2 (Nat.leb_le _ _) LP) in CS. cbn zeta in CS. cbn [erase_list cl_start] in ST. rewrite CST in ST, CS.
        exists 1. eexists. cbn [iter]. rewrite CS. split; [reflexivity|]. split; [|discriminate].
        eapply goto_rel; [exact ST| | |].
        { rewrite IN. cbn [tl]. rewrite map_app, AV. rewrite AQ at 2. rewrite rev_app_distr. apply assign_ext_app. rewrite rev_length. exact LE. }
        { apply assign_clean; [apply clean_nothing|]. intros x I. apply in_rev in I. auto. }
        { eapply fo_cons with (blk := blk) (i := i); cbn [sp_comp sp_block sp_outs sp_rest sp_vars fr_comp fr_block fr_env]; eauto; [now rewrite <- OU|].
          intros RN. destruct (SU RN) as (NM & NS). assert (NU : cb_type blk <> "unconditional").
          { intros T. destruct (pl_jump _ _ _ _ P T) as (? & ? & _ & _ & _ & _ & ? & _ & SQ). rewrite SP in SQ. injection SQ as SQ. elim (reserved _ FI). rewrite SQ. cbn. tauto. }
          assert (NC : cb_type blk <> "conditional").
          { intros T. destruct (pl_jumpi _ _ _ _ P T) as (? & ? & ? & ? & _ & _ & _ & _ & _ & ? & _ & SQ). rewrite SP in SQ. injection SQ as SQ. elim (reserved _ FI). rewrite SQ. cbn. tauto. }
          pose proof (pl_other _ _ _ _ P NU NC) as J. unfold successors in NS. rewrite J in NS. destruct (cb_falls_to blk) as [next|]; [|elim NS; reflexivity]. exists next. auto. }
      * assert (NF : ~ In (li_op i) fns) by (now apply lookup_None). destruct (String.eqb_spec (li_op i) "functionReturn") as [FR|NR].
        -- (* return *)
           destruct (pl_last _ _ _ _ P pre i IQ) as (_ & TF & _). specialize (TF FR). destruct (pl_return _ _ _ _ P TF) as (r & vs & RN & NI & pre' & IQ' & SP'). rewrite SP in SP'. injection SP' as SP'.
           destruct calls as [|k calls]; [discriminate|]. inversion F as [|? fr ? frames' blk' i' B' SP2 SO SR FC FB XF CF NO NX FO]; subst. remember (map (aval sem e3) (li_ins j)) as args eqn:AV. symmetry in AV.
           destruct (Nat.eqb_spec (length (sp_outs k)) (length args)) as [LE|]; [|discriminate]. injection ST as <-.
           specialize (INR FR). cbn [li_ins filter] in INR. rewrite RN, opt_eqb_refl in INR. cbn [negb] in INR.
           assert (IJ : li_ins j = vs).
           { rewrite INR. apply filter_all. intros x I. apply negb_true_iff. destruct (opt_eqb (Some x) (Some r)) eqn:Q; [|reflexivity]. apply opt_eqb_eq in Q. injection Q as ->. contradiction. }
           rewrite IJ in AV. destruct NX as (next & FL & JN & NM & NC); [congruence|]. rewrite FC, FB, prog_block, B' in CS. cbn [option_map pblock_of p_last p_falls_to] in CS. rewrite SP2 in CS. cbn [option_map cins_of c_out li_ins tl] in CS. cbv zeta in CS. rewrite AV, <- SO, LE, Nat.eqb_refl, FL in CS.
           cbn [go option_map] in CS. exists 0. eexists. split; [reflexivity|]. split; [|rewrite SR; cbn; lia]. rewrite SR.
           eapply (rel_back _ _ _ w calls _ blk' next (bind_vars (fr_env fr) (sp_outs k) args)); eauto; [now apply assign_ext|].
           apply assign_clean; [exact CF|]. now rewrite SO.
        -- (* stop *)
           specialize (SAME NF NR). subst j. destruct (String.eqb_spec (li_op i) "JUMP") as [Q|]; [elim NJ; rewrite Q; cbn; tauto|]. destruct (String.eqb_spec (li_op i) "JUMPI") as [Q|]; [elim NJ; rewrite Q; cbn; tauto|].
           assert (SM : mem (li_op i) stopping = true).
           { apply mem_In. apply in_app_iff in IL as [IL|IL]; [|contradiction]. unfold leaving in IL. unfold stopping. cbn [In] in IL |- *. intuition congruence. }
           rewrite SM in ST. injection ST as <-. exists 1. eexists. cbn [iter]. rewrite CS, AV. split; [reflexivity|]. split; [constructor|discriminate].
Qed.

Lemma csteps_iter : forall n t, csteps sem truth blank n prog t = iter cstep n t.
Proof. induction n as [|n IH]; intros t; [reflexivity|]. cbn [csteps iter]. destruct (cstep t); [apply IH|reflexivity]. Qed.
Definition begin (e : string -> V) (w : W) : config V Loc LV := Run None None (k_start (g_main prog)) e w [].
Lemma begin_rel e w s : begins_at M obe w = Some s -> rel s (begin e w).
Proof.
  intros B. unfold begins_at in B. cbn [erase_object ob_main erase_list cl_start] in B. unfold begin. cbn [program_of g_main pcomponent_of k_start].
  destruct (cl_start (ob_main ob)) as [st|]; [|discriminate]. eapply goto_rel; [exact B|intros x v Q; discriminate|apply clean_nothing|constructor].
Qed.
Theorem erased_program e w :
  (forall op args w', stops M obe w op args w' -> exists n, csteps sem truth blank n prog (begin e w) = Some (Halt op args w'))
  /\ (goes_on M obe w -> forall n, exists t, csteps sem truth blank n prog (begin e w) = Some t).
Proof.
  split.
  - intros op args w' (s & n & B & I). rewrite osteps_iter in I. destruct (sim_reach _ _ rel measure sim_step n s _ _ (begin_rel e w s B) I) as (m & t' & G & H). inversion H; subst.
    exists m. rewrite csteps_iter. exact G.
  - intros (s & B & I) n. assert (I' : forall k, exists s', iter (ostep M obe) k s = Some s') by (intros k; destruct (I k) as (c & b & r & e1 & w' & cs & Q); rewrite osteps_iter in Q; eauto).
    destruct (sim_forever _ _ rel measure sim_step s _ (begin_rel e w s B) I' n) as (m & t' & LE & G). rewrite csteps_iter. exact (iter_le _ n m _ _ LE G).
Qed.
End Prog.
