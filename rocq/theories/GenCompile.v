(** C56 and C52: the conditions on the ids are met by what the driver stores
    when nothing has to be repaired. *)
From Verif Require Import Base Lexical SymExecModel AsmModel MachineSpec FootprintSpec DepsModel GreedyTailModel SpecModel SpecSem SpecDce BlockSpec EmitModel EmitSpec RegModel RegsSpec ProgSem ProgSpec ProgProofs ProgProps ProgExample.
From Verif Require Import UtilModel UtilProps LiveModel CfgModel CfgSpec RemoveProps RenameModel JumpModel JumpSpec JumpExamples CombineModel ObjCombineSpec ObjCombineProps ObjSem ObjProgram ObjExamples ObjRenameModel ObjRenameSpec ObjRenameProps ObjSsaSpec ObjInlineModel ObjDriverSpec
  InlineDriverModel ObjDriver ObjDriverProps ObjLayoutSpec ConstModel ConstSpec ObjFrontModel ObjFront ObjFrontProps CompileSpec CompileOrigin CompileProofs CompileProps CompileCheck CompileExample.
From Verif Require CheckerSim TargetModel TargetSpec SearchSpec SearchProofs SearchProps SearchModel PermutModel PermutProps SearchIds GreedyTailProofs LexicalProofs.
From Verif Require Import GenModel GenSpec GenProofs GenProps.
Open Scope string_scope. Open Scope list_scope.

(** ** One block *)
Lemma swap_reach z : GreedyTailModel.check_dup_swap 16 [PermutModel.swap_name z] = Ok tt -> (1 <= z <= 16)%Z.
Proof.
  intros C. split; [apply (SearchProps.check_no_zero _ _ C z); left; reflexivity|].
  pose proof (SearchProps.check_no_zero _ _ C z (or_introl eq_refl)) as L.
  destruct (GreedyTailProofs.check_dup_swap_depth _ _ C _ (or_introl eq_refl)) as (n & D & B). { left. apply LexicalProofs.startswith_app. }
  unfold GreedyTailProofs.depth_of, PermutModel.swap_name in D. rewrite LexicalProofs.startswith_app in D.
  change (sdrop 4 ("SWAP" ++ str_Z z)) with (str_Z z) in D. rewrite PermutProps.py_int_str in D by lia. injection D as <-. lia.
Qed.
Lemma dup_reach n : GreedyTailModel.check_dup_swap 16 [dup_id n] = Ok tt -> (1 <= n <= 16)%nat.
Proof.
  intros C. destruct (GreedyTailProofs.check_dup_swap_depth _ _ C _ (or_introl eq_refl)) as (k & D & B). { right. apply LexicalProofs.startswith_app. }
  unfold GreedyTailProofs.depth_of, dup_id in D. rewrite LexicalProofs.startswith_app in D.
  assert (S : startswith "SWAP" ("DUP" ++ str_nat n) = false) by reflexivity. rewrite S in D.
  change (sdrop 3 ("DUP" ++ str_nat n)) with (str_nat n) in D. rewrite py_int_str_nat in D. injection D as <-. lia.
Qed.
Lemma swap_no_push z : (1 <= z <= 16)%Z -> contains "PUSH" (PermutModel.swap_name z) = false.
Proof.
  intros H. assert (D : (z = 1 \/ z = 2 \/ z = 3 \/ z = 4 \/ z = 5 \/ z = 6 \/ z = 7 \/ z = 8 \/ z = 9 \/ z = 10 \/ z = 11 \/ z = 12 \/ z = 13 \/ z = 14 \/ z = 15 \/ z = 16)%Z) by lia.
  repeat (destruct D as [-> |D]; [reflexivity|]). subst z. reflexivity.
Qed.
Lemma dup_no_push n : (1 <= n <= 16)%nat -> contains "PUSH" (dup_id n) = false.
Proof.
  intros [H1 H2]. do 17 (destruct n as [|n]; [first [lia|reflexivity]|]). lia.
Qed.
Section Block.
Context (fuel : nat) (b : gblock) (r : gresult) (M : made fuel b r) (G : TargetSpec.well_given (gb_spec b)) (N : no_register_names (gb_spec b)).
Context (V : gr_vget r = false).
Lemma no_get_set id : In id (gr_ids r) -> vget_arg id = None /\ vset_arg id = None.
Proof.
  assert (HV : has_vget (gr_ids r) = false) by (apply made_eq in M as (_ & _ & _ & _ & <-); exact V).
  intros H. destruct (made_none fuel b r M G N HV id H) as [A B]. split.
  - destruct (vget_arg id) eqn:Q; [apply vget_arg_starts in Q; congruence|reflexivity].
  - destruct (vset_arg id) eqn:Q; [apply vset_arg_starts in Q; congruence|reflexivity].
Qed.
Lemma unflagged_track : track (gr_ids r) [] [] = Some [].
Proof.
  assert (H : forall id, In id (gr_ids r) -> vget_arg id = None /\ vset_arg id = None) by apply no_get_set.
  revert H. generalize (gr_ids r). induction l as [|id l IH]; intros H; [reflexivity|]. cbn [track].
  destruct (H id (or_introl eq_refl)) as [-> ->]. apply IH. intros. apply H. right. assumption.
Qed.
Lemma unflagged_ids_ok : ids_ok (gr_ids r) = true.
Proof.
  pose proof (made_depth _ _ _ M) as D. unfold ids_ok. apply forallb_forall. intros id H. apply negb_true_iff.
  destruct (no_get_set id H) as [A B]. destruct (made_shape _ _ _ M G) as [Sh _].
  destruct (Sh id H) as [U|(x & ->)].
  - destruct U as [U|[-> |[(z & ->)|[(n & ->)|(x & ->)]]]].
    + apply in_map_iff in U as (i & <- & Hi). rewrite (SearchSpec.wf_names _ (TargetSpec.wg_ops _ G) i Hi). reflexivity.
    + reflexivity.
    + rewrite swap_no_push; [apply andb_false_r|]. apply swap_reach. exact (CheckerSim.check_dup_swap_In _ _ D _ H).
    + rewrite dup_no_push; [apply andb_false_r|]. apply dup_reach. exact (CheckerSim.check_dup_swap_In _ _ D _ H).
    + exfalso. assert (HV : has_vget (gr_ids r) = false) by (apply made_eq in M as (_ & _ & _ & _ & <-); exact V).
      destruct (made_none fuel b r M G N HV _ H) as [Q _]. discriminate.
  - exfalso. assert (HV : has_vget (gr_ids r) = false) by (apply made_eq in M as (_ & _ & _ & _ & <-); exact V).
    destruct (made_none fuel b r M G N HV _ H) as [_ Q]. discriminate.
Qed.
End Block.

(** What is asked of a block before the synthesizer is run: the conditions of
    [compiled] that do not mention the ids. *)
Record prepared (b : tblock) : Prop := {
  pr_ssa : ssa_block (p_instrs (t_block b)) (t_initial b);
  pr_orderable : orderable (p_instrs (t_block b));
  pr_target : before_split (p_last (t_block b)) (t_final b) (t_target b);
  pr_names : forall v, In v (t_target b) -> layout_name v;
  pr_used : loads_used (p_instrs (t_block b)) (t_target b);
  pr_spec : build_spec (p_instrs (t_block b)) (p_last (t_block b)) (t_initial b) (t_final b) = Ok (t_spec b);
  pr_control : forall i, In i (p_instrs (t_block b)) -> ~ In (upper (c_op i)) control_names;
  pr_nodup : NoDup (t_initial b);
  pr_phis : NoDup (map fst (p_phis (t_block b)))
}.
Lemma prepared_compiled fuel b g r : prepared b -> made fuel g r -> TargetSpec.well_given (gb_spec g) -> no_register_names (gb_spec g) ->
  gr_vget r = false -> TargetModel.t_sfs (gb_spec g) = t_spec b -> gb_junk g = t_junk b -> gr_ids r = t_ids b -> t_slots b = [] -> t_held b = [] -> compiled b.
Proof.
  intros P M G N V ES EJ EI SL HE. destruct P. constructor; auto.
  - rewrite <- EI. exact (unflagged_ids_ok _ _ _ M G N V).
  - apply made_eq in M as (_ & _ & A & _). rewrite <- ES, <- EI, <- EJ. exact A.
  - rewrite <- EI. exact (made_depth _ _ _ M).
  - rewrite <- EI, SL, HE. rewrite (unflagged_track _ _ _ M G N V). discriminate.
  - rewrite HE. intros ? ? [].
Qed.

(** ** The whole object *)
(** What the layouts have to satisfy, before the synthesizer is run: the
    conditions of [generated] that do not mention ids or registers. *)
Record laid_out (ob : cobject) (tags : list (string * nat)) (res : findings) (dummy : list string) (fuel : nat) : Prop := {
  la_prepared : forall c g x b, component ob c g -> lookup x (cl_blocks g) = Some b -> prepared (tblock_for b (res c x));
  la_unread : forall c g x b, component ob c g -> lookup x (cl_blocks g) = Some b -> unread dummy (tblock_for b (res c x));
  la_dummy : forall c r, return_name ob c = Some r -> ~ In r dummy;
  la_kind : forall c g x b, component ob c g -> lookup x (cl_blocks g) = Some b -> kind_ok ob b;
  la_junk : forall c g x b, component ob c g -> lookup x (cl_blocks g) = Some b -> return_name ob c <> None -> r_junk (res c x) = false;
  la_edges : forall c g x b x' b', component ob c g -> lookup x (cl_blocks g) = Some b -> In x' (successors b) -> lookup x' (cl_blocks g) = Some b' ->
    layouts_agree dummy (match return_name ob c with None => true | Some _ => false end) (Some x) (r_final (res c x)) (tblock_for b' (res c x'));
  la_entry : forall c g s b, component ob c g -> cl_start g = Some s -> lookup s (cl_blocks g) = Some b ->
    layouts_agree dummy (match return_name ob c with None => true | Some _ => false end) None (params_of ob c) (tblock_for b (res c s));
  la_results : forall c g x b i rest v, component ob c g -> lookup x (cl_blocks g) = Some b -> cb_split b = Some i ->
    r_final (res c x) = li_outs i ++ rest -> In v rest -> ~ In v (li_outs i);
  la_return : forall c g x b, component ob c g -> lookup x (cl_blocks g) = Some b -> cb_type b = "FunctionReturn" -> r_final (res c x) = [];
  la_formed : forall blocks start, In (blocks, start) (emitted_component (t_main (translation_for ob res)) :: map snd (emitted_functions (translation_for ob res))) ->
    well_formed (map fst (ob_functions ob)) (tag_numbers tags) blocks start /\ length blocks <= fuel
}.
(** Nothing is kept in memory. *)
Definition on_stack_only (res : findings) : Prop := forall c, fd_regs res c = [] /\ forall x, r_slots (res c x) = [] /\ r_held (res c x) = [].

(** The program given to the driver: the blocks of the object with their
    specifications, [rest c x] being the fields of the specification of the block
    [x] of [c] that only the synthesizer reads. *)
Definition given_block (res : findings) (rest : option string -> string -> TargetModel.spec) (c : option string) (x : string) : gblock :=
  {| gb_name := x; gb_junk := r_junk (res c x);
     gb_spec := {| TargetModel.t_sfs := r_spec (res c x); TargetModel.t_mem := TargetModel.t_mem (rest c x); TargetModel.t_sto := TargetModel.t_sto (rest c x);
                   TargetModel.t_trans := TargetModel.t_trans (rest c x); TargetModel.t_size := TargetModel.t_size (rest c x); TargetModel.t_gas := TargetModel.t_gas (rest c x) |} |}.
Definition given_list (res : findings) rest (c : option string) (g : clist) : list gblock := map (fun kb => given_block res rest c (fst kb)) (cl_blocks g).
Definition given_program (ob : cobject) (res : findings) rest : gcfg :=
  GCfg [("object", {| gb_main := given_list res rest None (ob_main ob);
                      gb_functions := map (fun fk => (fst fk, given_list res rest (Some (fst fk)) (fn_blocks (snd fk)))) (ob_functions ob) |}, None)].
(** The ids found are those that the driver has stored. *)
Definition stored_list (res : findings) (c : option string) (g : clist) : list (string * list string) :=
  map (fun kb => (fst kb, r_ids (res c (fst kb)))) (cl_blocks g).
Definition stored (ob : cobject) (res : findings) (reps : list greport) : Prop :=
  map (fun rep => map (fun r => (gr_name r, gr_ids r)) (ge_blocks rep)) reps
  = stored_list res None (ob_main ob) :: map (fun fk => stored_list res (Some (fst fk)) (fn_blocks (snd fk))) (ob_functions ob).

Lemma list_stored fuel res rest c g rep : Forall2 (made fuel) (given_list res rest c g) (ge_blocks rep) ->
  map (fun r => (gr_name r, gr_ids r)) (ge_blocks rep) = stored_list res c g ->
  forall x b, In (x, b) (cl_blocks g) -> exists r, In r (ge_blocks rep) /\ made fuel (given_block res rest c x) r /\ gr_ids r = r_ids (res c x).
Proof.
  unfold given_list, stored_list. generalize (cl_blocks g) (ge_blocks rep). induction l as [|[x b] l IH]; intros rs F E x' b' H; [destruct H|].
  cbn [map] in F. inversion F as [|? r ? rs' M F' E1]. subst. cbn [map] in E. injection E as E1 E2 E3. cbn [fst] in *.
  destruct H as [H|H]; [injection H as <- <-; exists r; split; [left; reflexivity|]; split; [exact M|exact E2]|].
  destruct (IH _ F' E3 x' b' H) as (r' & H1 & H2). exists r'. split; [right; exact H1|exact H2].
Qed.
Lemma all_stored fuel ob res rest reps : Forall2 (reported fuel) (block_lists (given_program ob res rest)) reps -> stored ob res reps ->
  forall c g x b, component ob c g -> lookup x (cl_blocks g) = Some b ->
  exists rep r, In rep reps /\ In r (ge_blocks rep) /\ made fuel (given_block res rest c x) r /\ gr_ids r = r_ids (res c x).
Proof.
  unfold given_program, stored. cbn [block_lists flat_map gb_main gb_functions]. rewrite !app_nil_r, map_map. cbn [snd].
  intros F E c g x b K L. apply lookup_In in L. destruct reps as [|rep0 reps]; [discriminate|]. cbn [map] in E. injection E as E0 E.
  inversion F as [|? ? ? ? R0 F' Q1 Q2]. subst. destruct c as [f|].
  - destruct K as (k & Lk & <-). apply lookup_In in Lk. clear R0 E0 F.
    revert reps F' E Lk. induction (ob_functions ob) as [|[f' k'] fs IH]; intros reps F E Lk; [destruct Lk|].
    cbn [map] in F, E. destruct reps as [|rep reps]; [discriminate|]. cbn [map] in E. injection E as E1 E2. inversion F as [|? ? ? ? R1 F' Q1 Q2]. subst.
    destruct Lk as [Lk|Lk].
    + injection Lk as -> ->. cbn [fst snd] in *. apply reported_blocks in R1 as [R1 _].
      destruct (list_stored _ _ _ _ _ _ R1 E1 x b L) as (r & H1 & H2). exists rep, r. split; [right; left; reflexivity|]. split; [exact H1|exact H2].
    + destruct (IH reps F' E2 Lk) as (rp & r & H1 & H2). exists rp, r. split; [destruct H1; [left; assumption|right; right; assumption]|exact H2].
  - cbn in K. subst g. apply reported_blocks in R0 as [R0 _]. destruct (list_stored _ _ _ _ _ _ R0 E0 x b L) as (r & H1 & H2).
    exists rep0, r. split; [left; reflexivity|]. split; [exact H1|exact H2].
Qed.

(** From the object given to the code: the synthesizer's part of C52 discharged.
    If the driver returns and reports nothing to repair, the code emitted from
    its sequences does what the object given does.  What is left of the
    conditions is about the layouts.
    Not covered: programs that have to be repaired, that the layouts are found,
    and "invalid". *)
Theorem compile_synthesized_keeps_meaning_partial : forall split_ops order trees ob ob' tags res rest dummy fuel gfuel reps code,
  source_ok ob -> inlining_order ob order -> (forall f, called_once ob f -> ~ calls ob f f) -> trees_of_blocks trees ->
  (forall f, In f (map fst (ob_functions ob)) -> ~ In f ["return"; "revert"; "stop"; "selfdestruct"]) ->
  preprocess split_ops order trees ob = Ok (ob', tags) ->
  laid_out ob' tags res dummy fuel -> on_stack_only res ->
  (* the driver is run on the blocks, reports nothing, and its ids are used *)
  all_given (given_program ob' res rest) ->
  cfg_ids gfuel (given_program ob' res rest) = Ok (false, reps) -> stored ob' res reps ->
  traverse_cfg fuel (tag_numbers tags) (emitted_component (t_main (translation_for ob' res))) (emitted_functions (translation_for ob' res)) = Ok code ->
  forall (V LV : Type) (sem : semantics V place LV) val truth tag_of, machine_like sem val tag_of (translation_for ob' res) (tag_numbers tags) ->
  forall blank w stack regs,
  let machine := At 0 {| m_stack := stack; m_world := w; m_regs := regs |} in
  (forall op args w', stops (machine_words sem truth blank) ob w op args w' ->
     exists k w'', esteps sem truth tag_of k code machine = Some (Stopped op args w'') /\ forall l, w'' l = w' l)
  /\ (goes_on (machine_words sem truth blank) ob w -> forall k, exists pc m, esteps sem truth tag_of k code machine = Some (At pc m)).
Proof.
  intros so order trees ob ob' tags res rest dummy fuel gfuel reps code SO IO NR TB PF E LA OS AG DR ST TC V LV sem val truth tag_of ML blank w st regs machine.
  assert (NOR : registers_of (translation_for ob' res) = []).
  { unfold registers_of, translation_for. cbn [t_main t_functions flat_map tcomponent_for t_regs]. rewrite (proj1 (OS None)). cbn [app]. rewrite map_map. cbn [snd].
    induction (ob_functions ob') as [|fk fs IH]; [reflexivity|]. cbn [map flat_map tcomponent_for t_regs]. rewrite (proj1 (OS _)). exact IH. }
  assert (GE : generated ob' tags res dummy fuel).
  { pose proof (cfg_reports _ _ _ DR) as [FR FL]. cbn [fst snd] in FR, FL. constructor; try (destruct LA; assumption).
    - intros c g x b K L. destruct (all_stored _ _ _ _ _ FR ST c g x b K L) as (rep & r & Hrep & Hr & M & EI).
      assert (Hb : In (given_block res rest c x) (blocks_of (given_program ob' res rest))).
      { unfold blocks_of, given_program. cbn [block_lists flat_map gb_main gb_functions]. rewrite !app_nil_r, map_map. cbn [snd]. apply lookup_In in L. cbn [concat]. apply in_app_iff.
        destruct c as [f|]; [right|left; cbn in K; subst g; apply in_map_iff; exists (x, b); auto].
        destruct K as (k & Lk & <-). apply lookup_In in Lk. apply in_concat. exists (given_list res rest (Some f) (fn_blocks k)).
        split; [apply in_map_iff; exists (f, k); auto|apply in_map_iff; exists (x, b); auto]. }
      destruct (AG _ Hb) as [G N].
      assert (NV : gr_vget r = false).
      { destruct (report_facts _ _ _ rep DR Hrep) as [Q _]. destruct (gr_vget r) eqn:Vr; [|reflexivity]. exfalso.
        assert (R1 : ge_repair rep = true) by (rewrite Q; apply existsb_exists; eauto).
        assert (R2 : existsb ge_repair reps = true) by (apply existsb_exists; eauto). congruence. }
      destruct (OS c) as [_ O2]. destruct (O2 x) as [O3 O4].
      exact (prepared_compiled gfuel (tblock_for b (res c x)) _ r (la_prepared _ _ _ _ _ LA c g x b K L) M G N NV eq_refl eq_refl EI O3 O4).
    - intros c g x b x' b' _ _ _ _ r u H. destruct (OS c) as [_ O2]. rewrite (proj2 (O2 x')) in H. destruct H.
    - intros c g s _ _. apply (OS c).
    - intros c g x b _ _. destruct (OS c) as [O1 O2]. destruct (O2 x) as [-> ->]. rewrite O1. split; [intros ? []|]. split; [intros ? []|].
      intros i _ _. rewrite (proj1 (OS _)). intros ? []. }
  destruct (compile_keeps_meaning_partial so order trees ob ob' tags res dummy fuel code SO IO NR TB PF E GE TC V LV sem val truth tag_of ML blank w st regs) as (H1 & H2).
  { intros n s _. now apply no_registers_spares. }
  split; [|exact H2]. intros op args w' S. destruct (H1 op args w' S) as (k & w'' & Q & W). exists k, w''. split; [exact Q|]. intros l. apply W. now apply no_registers.
Qed.
Print Assumptions compile_synthesized_keeps_meaning_partial.

(** ** The loop of C52 again, with the ids of the driver *)
Lemma generated_laid_out ob tags res dummy fuel : generated ob tags res dummy fuel -> laid_out ob tags res dummy fuel.
Proof.
  intros H. destruct H. constructor; try assumption. intros c g x b K L. destruct (ge_compiled c g x b K L). constructor; assumption.
Qed.
Definition stack_layouts (ids : option string -> string -> list string) : list (option string * string * (list string * list string * list string * list string * bool * list Z)) :=
  [ (None, "Block0f", ([], ["v0"], ["3"; "0x03"; "4"], ids None "Block0f", true, []));
    (None, "Block0s", (["v0"], ["v0"], ["1"; "v0"], ids None "Block0s", true, []));
    (None, "Loop", (["v1"], ["v1"], ["2"; "v2"; "v1"], ids None "Loop", true, []));
    (None, "Bodyf", (["v1"], ["v3"], ["3"; "v1"; "5"], ids None "Bodyf", true, []));
    (None, "Bodys", (["v3"], ["v3"], ["1"; "v3"], ids None "Bodys", true, []));
    (None, "Exit", (["v1"], ["v1"], ["v1"], ids None "Exit", true, []));
    (Some "dec_1", "dec_Block0", (["v4"; "out_dec_1"], [], ["out_dec_1"; "v5"], ids (Some "dec_1") "dec_Block0", false, [])) ].
Definition stack_found (ids : option string -> string -> list string) : findings :=
  {| fd_regs := fun _ => []; fd_block := fd_block (found_in (fst count_preprocessed) (stack_layouts ids)) |}.
Definition no_orders : option string -> string -> TargetModel.spec := fun _ _ =>
  {| TargetModel.t_sfs := {| s_src := []; s_tgt := []; s_instrs := []; s_deps := [] |}; TargetModel.t_mem := []; TargetModel.t_sto := []; TargetModel.t_trans := [];
     TargetModel.t_size := (fun _ => 2%Z); TargetModel.t_gas := (fun _ => 3%Z) |}.
(** The driver does not look at the ids. *)
Definition driven : bool * list greport :=
  match cfg_ids 40 (given_program (fst count_preprocessed) (stack_found (fun _ _ => [])) no_orders) with Ok o => o | Raise _ => (true, []) end.
Definition driven_ids (c : option string) (x : string) : list string :=
  match find (fun r => String.eqb (gr_name r) x) (flat_map ge_blocks (snd driven)) with Some r => gr_ids r | None => [] end.
Definition driven_found : findings := stack_found driven_ids.
Definition driven_translation : translation := translation_for (fst count_preprocessed) driven_found.
Definition driven_program : gcfg := given_program (fst count_preprocessed) driven_found no_orders.
Definition givenb (b : gblock) : bool :=
  TargetSpec.well_givenb (gb_spec b)
  && forallb (fun i => negb (startswith "VGET" (i_id i)) && negb (startswith "VSET" (i_id i))) (s_instrs (TargetModel.t_sfs (gb_spec b))).
Lemma givenb_ok c : forallb givenb (blocks_of c) = true -> all_given c.
Proof.
  intros H b Hb. rewrite forallb_forall in H. apply H in Hb. unfold givenb in Hb. apply andb_true_iff in Hb as [A B].
  split; [apply TargetProps.well_givenb_ok; exact A|]. intros i Hi. rewrite forallb_forall in B. apply B in Hi. apply andb_true_iff in Hi as [B1 B2].
  apply negb_true_iff in B1, B2. auto.
Qed.
Lemma driven_runs : cfg_ids 40 driven_program = Ok (false, snd driven).
Proof. vm_compute. reflexivity. Qed.
Lemma driven_given : all_given driven_program.
Proof. apply givenb_ok. vm_compute. reflexivity. Qed.
Lemma stack_slots ids e : In e (stack_layouts ids) -> snd (snd e) = [].
Proof. unfold stack_layouts. cbn [In]. intros F. repeat (destruct F as [<- |F]; [reflexivity|]). destruct F. Qed.
Lemma found_on_stack ids : on_stack_only (stack_found ids).
Proof.
  intros c. split; [reflexivity|]. intros x. unfold stack_found. cbn [fd_block]. unfold found_in. cbn [fd_block].
  destruct (find _ (stack_layouts ids)) as [[[c' x'] [[[[[i f] t] is] j] sl]]|] eqn:F; [|auto].
  apply find_some in F as [F _]. apply stack_slots in F. cbn in F. subst sl. destruct (block_at (fst count_preprocessed) c x); auto.
Qed.
(** All the hypotheses, and what follows from them. *)
Example driven_meets : exists code,
  source_ok count_object /\ inlining_order count_object ["dec_1"] /\ (forall f, called_once count_object f -> ~ calls count_object f f) /\ trees_of_blocks start_trees /\
  preprocess [] ["dec_1"] start_trees count_object = Ok (fst count_preprocessed, snd count_preprocessed) /\
  laid_out (fst count_preprocessed) (snd count_preprocessed) driven_found [] 6 /\ stored (fst count_preprocessed) driven_found (snd driven) /\
  traverse_cfg 6 (tag_numbers (snd count_preprocessed)) (emitted_component (t_main driven_translation)) (emitted_functions driven_translation) = Ok code /\
  machine_like small_sem (fun z => z) (fun z => Some z) driven_translation (tag_numbers (snd count_preprocessed)) /\
  forall stack regs w op args w', stops (machine_words small_sem (fun z => negb (z =? 0)%Z) (fun _ => 0%Z)) count_object w op args w' ->
    exists k w'', esteps small_sem (fun z => negb (z =? 0)%Z) (fun z => Some z) k code (At 0 {| m_stack := stack; m_world := w; m_regs := regs |})
      = Some (Stopped op args w'') /\ forall l, w'' l = w' l.
Proof.
  assert (SO : source_ok count_object) by (apply sourceb_sound; vm_compute; reflexivity).
  assert (IO : inlining_order count_object ["dec_1"]) by (apply (orderb_sound _ _ (fun _ _ => false) (so_object _ SO)); [discriminate|vm_compute; reflexivity]).
  assert (NR : forall f, called_once count_object f -> ~ calls count_object f f) by (intros f _ C; apply (ranked_calls _ (rank_in ["dec_1"])) in C; [lia|vm_compute; reflexivity]).
  assert (E : preprocess [] ["dec_1"] start_trees count_object = Ok (fst count_preprocessed, snd count_preprocessed)) by (vm_compute; reflexivity).
  assert (LA : laid_out (fst count_preprocessed) (snd count_preprocessed) driven_found [] 6) by (apply generated_laid_out, generatedb_ok; vm_compute; reflexivity).
  assert (ST : stored (fst count_preprocessed) driven_found (snd driven)) by (vm_compute; reflexivity).
  assert (ML : machine_like small_sem (fun z => z) (fun z => Some z) driven_translation (tag_numbers (snd count_preprocessed))).
  { apply small_translation; [vm_compute; reflexivity|]. intros r Hr. exfalso. change (In r []) in Hr. exact Hr. }
  destruct (traverse_cfg 6 (tag_numbers (snd count_preprocessed)) (emitted_component (t_main driven_translation)) (emitted_functions driven_translation)) as [code|] eqn:TC; [|vm_compute in TC; discriminate].
  exists code. do 3 (split; [assumption|]). split; [exact start_trees_ok|]. split; [exact E|]. split; [exact LA|]. split; [exact ST|]. split; [reflexivity|]. split; [exact ML|].
  intros stack regs w op args w'.
  assert (PF : forall f, In f (map fst (ob_functions count_object)) -> ~ In f ["return"; "revert"; "stop"; "selfdestruct"]).
  { intros f Hf Q. cbn in Hf. destruct Hf as [<- |[]]. cbn in Q. intuition discriminate. }
  exact (proj1 (compile_synthesized_keeps_meaning_partial [] ["dec_1"] start_trees count_object (fst count_preprocessed) (snd count_preprocessed) driven_found no_orders [] 6 40 (snd driven) code
    SO IO NR start_trees_ok PF E LA (found_on_stack driven_ids) driven_given driven_runs ST TC _ _ small_sem _ _ _ ML (fun _ => 0%Z) w stack regs) op args w').
Qed.
