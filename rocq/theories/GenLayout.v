(** C42, C56 and C52: the layouts that the traversal chooses and the ids that the
    driver stores meet the conditions of the whole-program theorem. *)
From Verif Require Import Base Lexical SymExecModel AsmModel MachineSpec FootprintSpec DepsModel GreedyTailModel SpecModel SpecSem SpecDce BlockSpec EmitModel EmitSpec RegModel RegsSpec ProgSem ProgSpec ProgProofs ProgProps ProgExample.
From Verif Require Import UtilModel UtilProps LiveModel CfgModel CfgSpec RemoveProps RenameModel JumpModel JumpSpec JumpExamples CombineModel ObjCombineSpec ObjCombineProps ObjSem ObjProgram ObjExamples ObjRenameModel ObjRenameSpec ObjRenameProps ObjSsaSpec ObjInlineModel ObjDriverSpec
  InlineDriverModel ObjDriver ObjDriverProps ObjLayoutSpec ConstModel ConstSpec ObjFrontModel ObjFront ObjFrontProps CompileSpec CompileOrigin CompileProofs CompileProps CompileCheck CompileExample.
From Verif Require Import GenModel GenSpec GenProofs GenProps GenCompile.
From Verif Require LayoutModel UnifyModel LayoutGenModel LayoutGenSpec LayoutGenProps LayoutGenProg.
Open Scope string_scope. Open Scope list_scope.

(** The layouts found for the component [c] are those that the traversal has
    stored, run on its blocks with the tables [env] and the liveness [lv]. *)
Record traversed (ob : cobject) (res : findings) (dummy : list string) (c : option string) (g : clist) (env : LayoutGenModel.layout_env) (lv : LayoutGenModel.lives) (st : LayoutGenModel.layouts) : Prop := {
  tv_blocks : LayoutGenModel.le_blocks env = cl_blocks g;
  tv_start : cl_start g = Some (LayoutGenModel.le_start env);
  tv_inputs : LayoutGenModel.le_inputs env = params_of ob c;
  (* words are only left behind where nobody returns *)
  tv_junk : LayoutGenModel.le_main env && LayoutGenModel.le_junk env = true -> return_name ob c = None;
  tv_component : LayoutGenSpec.component_ok env lv;
  tv_tables : LayoutGenSpec.tables_ok env lv;
  tv_run : LayoutGenModel.construct_code_from_block_list env lv = Ok st;
  tv_reached : forall x b, lookup x (cl_blocks g) = Some b -> LayoutGenSpec.reached env x;
  tv_stored : forall x b, lookup x (cl_blocks g) = Some b -> lookup x (LayoutGenModel.ly_spec st) = Some (r_initial (res c x), r_final (res c x));
  tv_phis : forall x b i, lookup x (cl_blocks g) = Some b -> In i (LayoutGenModel.phi_instructions b) -> exists u, li_outs i = [u];
  (* the filler is listed, and is not a parameter *)
  tv_filler : forall x b u, lookup x (cl_blocks g) = Some b -> In u (r_initial (res c x)) -> LayoutGenSpec.filler u -> In u dummy;
  tv_params : NoDup (params_of ob c) /\ forall v, In v (params_of ob c) -> user_name v /\ ~ In v dummy
}.

(** The conditions of [laid_out] without those on the edges. *)
Record blocks_ready (ob : cobject) (tags : list (string * nat)) (res : findings) (dummy : list string) (fuel : nat) : Prop := {
  br_prepared : forall c g x b, component ob c g -> lookup x (cl_blocks g) = Some b -> prepared (tblock_for b (res c x));
  br_unread : forall c g x b, component ob c g -> lookup x (cl_blocks g) = Some b -> unread dummy (tblock_for b (res c x));
  br_dummy : forall c r, return_name ob c = Some r -> ~ In r dummy;
  br_kind : forall c g x b, component ob c g -> lookup x (cl_blocks g) = Some b -> kind_ok ob b;
  br_junk : forall c g x b, component ob c g -> lookup x (cl_blocks g) = Some b -> return_name ob c <> None -> r_junk (res c x) = false;
  br_results : forall c g x b i rest v, component ob c g -> lookup x (cl_blocks g) = Some b -> cb_split b = Some i ->
    r_final (res c x) = li_outs i ++ rest -> In v rest -> ~ In v (li_outs i);
  br_return : forall c g x b, component ob c g -> lookup x (cl_blocks g) = Some b -> cb_type b = "FunctionReturn" -> r_final (res c x) = [];
  br_formed : forall blocks start, In (blocks, start) (emitted_component (t_main (translation_for ob res)) :: map snd (emitted_functions (translation_for ob res))) ->
    well_formed (map fst (ob_functions ob)) (tag_numbers tags) blocks start /\ length blocks <= fuel
}.

Lemma phi_pairs_split : forall is, (forall i, In i is -> exists u, li_outs i = [u]) ->
  Forall2 (fun (p : string * list string) i => hd_error (li_outs i) = Some (fst p) /\ li_ins i = snd p) (flat_map (fun i => map (fun o => (o, li_ins i)) (li_outs i)) is) is.
Proof.
  induction is as [|i is IH]; intros H; [constructor|]. destruct (H i (or_introl eq_refl)) as (u & E). cbn [flat_map]. rewrite E. cbn [map app].
  constructor; [cbn [fst snd]; rewrite E; auto|]. apply IH. intros. apply H. right. assumption.
Qed.
Lemma lookup_mapped {A B} (f : string -> A -> B) x : forall l, lookup x (map (fun kb => (fst kb, f (fst kb) (snd kb))) l) = match lookup x l with Some b => Some (f x b) | None => None end.
Proof. induction l as [|[y b] l IH]; [reflexivity|]. cbn [map lookup fst snd]. destruct (String.eqb_spec y x) as [-> |_]; [reflexivity|exact IH]. Qed.

Lemma traversed_agrees ob tags res dummy fuel c g env lv st : component ob c g -> blocks_ready ob tags res dummy fuel -> traversed ob res dummy c g env lv st ->
  (forall x b x' b', lookup x (cl_blocks g) = Some b -> In x' (successors b) -> lookup x' (cl_blocks g) = Some b' ->
    layouts_agree dummy (match return_name ob c with None => true | Some _ => false end) (Some x) (r_final (res c x)) (tblock_for b' (res c x')))
  /\ (forall s b, cl_start g = Some s -> lookup s (cl_blocks g) = Some b ->
    layouts_agree dummy (match return_name ob c with None => true | Some _ => false end) None (params_of ob c) (tblock_for b (res c s))).
Proof.
  intros K BR T. set (k := tcomponent_for (params_of ob c) (return_name ob c) (res c) (fd_regs res c) g).
  assert (LK : forall x tb, lookup x (t_blocks k) = Some tb -> exists b, lookup x (cl_blocks g) = Some b /\ tb = tblock_for b (res c x)).
  { intros x tb. unfold k, tcomponent_for. cbn [t_blocks]. rewrite (lookup_mapped (fun y b => tblock_for b (res c y))). destruct (lookup x (cl_blocks g)) as [b|]; [|discriminate]. intros [= <-]. eauto. }
  assert (KL : forall x b, lookup x (cl_blocks g) = Some b -> lookup x (t_blocks k) = Some (tblock_for b (res c x))).
  { intros x b L. unfold k, tcomponent_for. cbn [t_blocks]. rewrite (lookup_mapped (fun y b => tblock_for b (res c y))), L. reflexivity. }
  assert (SC : LayoutGenProg.same_component env (LayoutGenModel.ly_spec st) k).
  { constructor.
    - unfold k, tcomponent_for. cbn [t_start]. now rewrite (tv_start _ _ _ _ _ _ _ _ T).
    - unfold k, tcomponent_for. cbn [t_params]. symmetry. exact (tv_inputs _ _ _ _ _ _ _ _ T).
    - exact (tv_junk _ _ _ _ _ _ _ _ T).
    - intros x tb L. destruct (LK x tb L) as (b & Lb & ->). exists b. unfold LayoutGenSpec.block_at. rewrite (tv_blocks _ _ _ _ _ _ _ _ T).
      split; [exact Lb|]. split; [exact (tv_reached _ _ _ _ _ _ _ _ T x b Lb)|]. split; [exact (tv_stored _ _ _ _ _ _ _ _ T x b Lb)|].
      do 3 (split; [reflexivity|]). apply phi_pairs_split. intros i Hi. exact (tv_phis _ _ _ _ _ _ _ _ T x b i Lb Hi). }
  assert (FL : LayoutGenProg.fillers dummy k).
  { constructor.
    - intros x tb u L I F. destruct (LK x tb L) as (b & Lb & ->). exact (tv_filler _ _ _ _ _ _ _ _ T x b u Lb I F).
    - intros x tb p L Hp v Hv Hd. destruct (LK x tb L) as (b & Lb & ->). destruct (br_unread _ _ _ _ _ BR c g x b K Lb v Hd) as (_ & _ & Q & _). exact (proj2 (Q p Hp) Hv).
    - exact (tv_params _ _ _ _ _ _ _ _ T). }
  destruct (LayoutGenProg.chosen_layouts_agree env lv st k dummy (tv_component _ _ _ _ _ _ _ _ T) (tv_tables _ _ _ _ _ _ _ _ T) (tv_run _ _ _ _ _ _ _ _ T) SC FL) as [H1 H2].
  split.
  - intros x b x' b' L I L'. refine (H1 x _ x' _ (KL x b L) _ (KL x' b' L')). unfold successors in I. apply in_app_iff in I. cbn [tblock_for t_block pblock_of p_jump_to p_falls_to].
    destruct I as [I|I]; [left; destruct (cb_jump_to b) as [y|]|right; destruct (cb_falls_to b) as [y|]]; cbn in I; try contradiction; destruct I as [-> |[]]; reflexivity.
  - intros s b Hs L. destruct (H2 (tblock_for b (res c s))) as (_ & _ & Q); [|exact Q].
    unfold k at 1, tcomponent_for. cbn [t_start]. rewrite Hs. apply KL. exact L.
Qed.

(** From the object given to the code: layouts and ids are what the stages have
    computed.  If the traversal stores the layouts of each component and the
    driver reports nothing to repair, the code emitted does what the object given
    does.  What is left of the conditions is about one block at a time.
    Not covered: programs that have to be repaired, and "invalid". *)
Theorem compile_staged_keeps_meaning_partial : forall split_ops order trees ob ob' tags res rest dummy fuel gfuel reps code,
  source_ok ob -> inlining_order ob order -> (forall f, called_once ob f -> ~ calls ob f f) -> trees_of_blocks trees ->
  (forall f, In f (map fst (ob_functions ob)) -> ~ In f ["return"; "revert"; "stop"; "selfdestruct"]) ->
  preprocess split_ops order trees ob = Ok (ob', tags) ->
  (* the layouts are those of the traversal *)
  (forall c g, component ob' c g -> exists env lv st, traversed ob' res dummy c g env lv st) ->
  blocks_ready ob' tags res dummy fuel -> on_stack_only res ->
  (* the driver is run on the blocks, reports nothing, and its ids are used *)
  all_given (given_program ob' res rest) ->
  cfg_ids gfuel (given_program ob' res rest) = Ok (false, reps) -> stored ob' res reps ->
  traverse_cfg fuel (tag_numbers tags) (emitted_component (t_main (translation_for ob' res))) (emitted_functions (translation_for ob' res)) = Ok code ->
  forall (V LV : Type) (sem : semantics V place LV) val truth tag_of, machine_like sem val tag_of (translation_for ob' res) (tag_numbers tags) ->
  forall blank w stack regs,
  let machine := At 0 {| m_stack := stack; m_world := w; m_regs := regs |} in
  (forall op args w', stops (machine_words sem truth blank) ob w op args w' ->
     exists k w'', esteps sem truth tag_of k code machine = Some (Stopped op args w'') /\ forall l, w'' l = w' l)
  /\ (goes_on (machine_words sem truth blank) ob w -> forall k, exists pc m, esteps sem truth tag_of k code machine = Some (At pc m)).
Proof.
  intros so order trees ob ob' tags res rest dummy fuel gfuel reps code SO IO NR TB PF E TV BR.
  refine (compile_synthesized_keeps_meaning_partial so order trees ob ob' tags res rest dummy fuel gfuel reps code SO IO NR TB PF E _).
  constructor; try (destruct BR; assumption).
  - intros c g x b x' b' K. destruct (TV c g K) as (env & lv & st & T). exact (proj1 (traversed_agrees ob' tags res dummy fuel c g env lv st K BR T) x b x' b').
  - intros c g s b K. destruct (TV c g K) as (env & lv & st & T). exact (proj2 (traversed_agrees ob' tags res dummy fuel c g env lv st K BR T) s b).
Qed.
Print Assumptions compile_staged_keeps_meaning_partial.

(** ** The loop of C52 again, with the layouts of the traversal *)
Definition count_blocks : list (string * cblock) := Eval vm_compute in cl_blocks (ob_main (fst count_preprocessed)).
Definition dec_blocks : list (string * cblock) := Eval vm_compute in match ob_functions (fst count_preprocessed) with (_, k) :: _ => cl_blocks (fn_blocks k) | [] => [] end.
Definition env_for (bs : list (string * cblock)) (start : string) (inputs : list string) (main : bool) (path : string -> string -> option (list string)) : LayoutGenModel.layout_env := {|
  LayoutGenModel.le_blocks := bs; LayoutGenModel.le_start := start; LayoutGenModel.le_previous := fun _ => ""; LayoutGenModel.le_inputs := inputs;
  LayoutGenModel.le_main := main; LayoutGenModel.le_junk := true; LayoutGenModel.le_loops := ["Loop"; "Bodyf"; "Bodys"];
  LayoutGenModel.le_order := map (fun nb => (fst nb, [])) bs;
  LayoutGenModel.le_depth := [("Block0f", 0); ("Block0s", 1); ("Loop", 2); ("Bodyf", 3); ("Exit", 3); ("Bodys", 4); ("dec_Block0", 0)];
  LayoutGenModel.le_path := path; LayoutGenModel.le_succs := fun x => match lookup x bs with Some b => successors b | None => [] end;
  LayoutGenModel.le_preds := fun x => match lookup x bs with Some b => cb_comes_from b | None => [] end |}.
Definition count_path a b := if (String.eqb a "Block0s" && String.eqb b "Bodys")%bool then Some ["Block0s"; "Loop"; "Bodyf"; "Bodys"] else None.
Definition main_env := env_for count_blocks "Block0f" [] true count_path.
Definition dec_env := env_for dec_blocks "dec_Block0" ["v4"; "out_dec_1"] false (fun _ _ => None).
Definition count_live : LayoutGenModel.lives :=
  [ ("Block0f", LayoutGenProps.live_of [] ["v0"]); ("Block0s", LayoutGenProps.live_of ["v0"] ["v0"]); ("Loop", LayoutGenProps.live_of ["v1"] ["v1"]);
    ("Bodyf", LayoutGenProps.live_of ["v1"] ["v3"]); ("Bodys", LayoutGenProps.live_of ["v3"] ["v3"]); ("Exit", LayoutGenProps.live_of ["v1"] []) ].
Definition dec_live : LayoutGenModel.lives := [ ("dec_Block0", LayoutGenProps.live_of ["v4"; "out_dec_1"] []) ].
Ltac cs_block H := unfold LayoutGenSpec.block_at in H; apply lookup_In in H; cbn [LayoutGenModel.le_blocks main_env dec_env env_for count_blocks dec_blocks In] in H;
  repeat match type of H with _ \/ _ => destruct H as [H|H] end; try contradiction; injection H as ? ?; subst.
Ltac plain_component :=
  constructor;
  [ cbn; repeat constructor; cbn; intuition discriminate
  | intros x b s B I; cs_block B; LayoutGenProps.each_in I; eexists; (split; [reflexivity|cbn; auto])
  | intros x b p B I; cs_block B; LayoutGenProps.each_in I; eexists; (split; [reflexivity|cbn; auto])
  | intros x b B; cs_block B; cbn; repeat constructor; cbn; intuition discriminate
  | intros x b B; cs_block B; cbn; intuition discriminate
  | intros x b s1 b1 s2 b2 B I1 I2 B1 B2 J1 J2; cs_block B; LayoutGenProps.each_in I1; LayoutGenProps.each_in I2; try reflexivity; exfalso; unfold LayoutGenSpec.block_at in B1, B2; cbn in B1, B2;
      injection B1 as <-; injection B2 as <-; unfold LayoutGenSpec.join in J1, J2; cbn in J1, J2; lia
  | intros x b B; cs_block B; cbn; auto; right; (split; [repeat constructor; cbn; intuition discriminate|tauto])
  | intros x b i B I; cs_block B; LayoutGenProps.each_in I; (split; [discriminate|]); (split; [unfold LayoutGenSpec.join; cbn; lia|]); (split; [reflexivity|]);
      (split; [cbn; intuition discriminate|]); eexists; (split; [reflexivity|apply LayoutGenProps.not_reserved; reflexivity])
  | intros x b B; cs_block B; cbn; repeat constructor; cbn; tauto
  | intros x b B; cs_block B; eexists; (split; [reflexivity|]); (split; [cbn; repeat constructor; cbn; intuition discriminate|]);
      (split; [cbn; repeat constructor; cbn; intuition discriminate|]); (split; [intros u (i & Ii & Hu); LayoutGenProps.each_in Ii; cbn in Hu; injection Hu as <-; cbn; auto|]);
      intros v Iv; LayoutGenProps.each_in Iv; (split; [apply LayoutGenProps.not_reserved; reflexivity|discriminate])
  | intros x l L; apply lookup_In in L; LayoutGenProps.each_in L; injection L as <- <-; split; reflexivity
  | intros x b s sb lx ls B I Bs J Lx Ls; cs_block B; LayoutGenProps.each_in I; unfold LayoutGenSpec.block_at in Bs; cbn in Bs; injection Bs as <-; try (exfalso; apply J; unfold LayoutGenSpec.join; cbn; lia);
      cbn in Lx, Ls; injection Lx as <-; injection Ls as <-; intros v Iv; LayoutGenProps.each_in Iv; cbn; auto
  | intros x b s sb t tb lt u B I Bs P It N Bt Lt Iu; destruct P as (i & Ii & Hu);
      cs_block B; LayoutGenProps.each_in I; LayoutGenProps.each_in It; try congruence; unfold LayoutGenSpec.block_at in Bs; cbn in Bs; injection Bs as <-; LayoutGenProps.each_in Ii; cbn in Hu; injection Hu as <-;
      cbn in Lt; injection Lt as <-; LayoutGenProps.each_in Iu; discriminate
  | intros l L; cbn in L; injection L as <-; intros v Iv; LayoutGenProps.each_in Iv; cbn; auto ].
Lemma main_component : LayoutGenSpec.component_ok main_env count_live.
Proof. plain_component. Qed.
Lemma dec_component : LayoutGenSpec.component_ok dec_env dec_live.
Proof. plain_component. Qed.
Lemma main_tables : LayoutGenSpec.tables_ok main_env count_live.
Proof.
  constructor.
  - eexists. split; reflexivity.
  - intros x b B. cs_block B; eexists; reflexivity.
  - intros x b B. cs_block B; eexists; reflexivity.
  - intros a b p H. cbn [LayoutGenModel.le_path main_env env_for] in H. unfold count_path in H. destruct (String.eqb a "Block0s" && String.eqb b "Bodys")%bool eqn:E; [|discriminate].
    apply andb_true_iff in E as (E & E2). apply String.eqb_eq in E, E2. subst. injection H as <-. split; reflexivity.
  - intros x b p B I. cs_block B; LayoutGenProps.each_in I; eexists; reflexivity.
  - cbn. repeat constructor; cbn; intuition discriminate.
Qed.
Lemma dec_tables : LayoutGenSpec.tables_ok dec_env dec_live.
Proof.
  constructor.
  - eexists. split; reflexivity.
  - intros x b B. cs_block B; eexists; reflexivity.
  - intros x b B. cs_block B; eexists; reflexivity.
  - discriminate.
  - intros x b p B I. cs_block B; LayoutGenProps.each_in I; eexists; reflexivity.
  - cbn. repeat constructor; cbn; intuition discriminate.
Qed.
Definition no_layouts : LayoutGenModel.layouts := {| LayoutGenModel.ly_in := []; LayoutGenModel.ly_out := []; LayoutGenModel.ly_live := []; LayoutGenModel.ly_spec := [] |}.
Definition laid (env : LayoutGenModel.layout_env) (lv : LayoutGenModel.lives) : LayoutGenModel.layouts :=
  match LayoutGenModel.construct_code_from_block_list env lv with Ok st => st | Raise _ => no_layouts end.
Lemma not_filler u : (match u with String c _ => negb (Ascii.eqb c "b"%char) && negb (Ascii.eqb c "a"%char) | EmptyString => true end) = true -> ~ LayoutGenSpec.filler u.
Proof. intros H [-> |[(i & ->)|(i & ->)]]; cbn in H; discriminate. Qed.
Lemma main_traversed : traversed (fst count_preprocessed) driven_found [] None (ob_main (fst count_preprocessed)) main_env count_live (laid main_env count_live).
Proof.
  assert (BE : cl_blocks (ob_main (fst count_preprocessed)) = count_blocks) by (vm_compute; reflexivity).
  assert (R0 : LayoutGenSpec.reached main_env "Block0f") by constructor.
  assert (R1 : LayoutGenSpec.reached main_env "Block0s") by (eapply LayoutGenSpec.reached_step; [exact R0|reflexivity|now left]).
  assert (R2 : LayoutGenSpec.reached main_env "Loop") by (eapply LayoutGenSpec.reached_step; [exact R1|reflexivity|now left]).
  assert (R3 : LayoutGenSpec.reached main_env "Exit") by (eapply LayoutGenSpec.reached_step; [exact R2|reflexivity|now left]).
  assert (R4 : LayoutGenSpec.reached main_env "Bodyf") by (eapply LayoutGenSpec.reached_step; [exact R2|reflexivity|right; now left]).
  assert (R5 : LayoutGenSpec.reached main_env "Bodys") by (eapply LayoutGenSpec.reached_step; [exact R4|reflexivity|now left]).
  constructor.
  - symmetry. exact BE.
  - vm_compute. reflexivity.
  - reflexivity.
  - reflexivity.
  - exact main_component.
  - exact main_tables.
  - vm_compute. reflexivity.
  - intros x b L. rewrite BE in L. cs_block L; assumption.
  - intros x b L. rewrite BE in L. cs_block L; vm_compute; reflexivity.
  - intros x b i L I. rewrite BE in L. cs_block L; LayoutGenProps.each_in I; eexists; reflexivity.
  - intros x b u L I F. exfalso. rewrite BE in L. revert I F. cs_block L;
      match goal with |- In _ ?l -> _ => let v := eval vm_compute in l in change l with v end; intros I F; LayoutGenProps.each_in I; revert F; apply not_filler; reflexivity.
  - split; [constructor|intros v []].
Qed.
Lemma dec_traversed k : lookup "dec_1" (ob_functions (fst count_preprocessed)) = Some k ->
  traversed (fst count_preprocessed) driven_found [] (Some "dec_1") (fn_blocks k) dec_env dec_live (laid dec_env dec_live).
Proof.
  intros LK. assert (Q : option_map (fun k => (cl_blocks (fn_blocks k), cl_start (fn_blocks k), rev (fn_args k))) (lookup "dec_1" (ob_functions (fst count_preprocessed))) = Some (dec_blocks, Some "dec_Block0", ["v4"; "out_dec_1"])) by (vm_compute; reflexivity).
  rewrite LK in Q. cbn [option_map] in Q. injection Q as BE ES EA.
  assert (PE : params_of (fst count_preprocessed) (Some "dec_1") = ["v4"; "out_dec_1"]) by (vm_compute; reflexivity).
  constructor.
  - symmetry. exact BE.
  - exact ES.
  - symmetry. exact PE.
  - discriminate.
  - exact dec_component.
  - exact dec_tables.
  - vm_compute. reflexivity.
  - intros x b L. rewrite BE in L. cs_block L; constructor.
  - intros x b L. rewrite BE in L. cs_block L; vm_compute; reflexivity.
  - intros x b i L I. rewrite BE in L. cs_block L; LayoutGenProps.each_in I.
  - intros x b u L I F. exfalso. rewrite BE in L. revert I F. cs_block L;
      match goal with |- In _ ?l -> _ => let v := eval vm_compute in l in change l with v end; intros I F; LayoutGenProps.each_in I; revert F; apply not_filler; reflexivity.
  - rewrite PE. split; [repeat constructor; cbn; intuition discriminate|]. intros v Iv. cbn in Iv. destruct Iv as [<- |[<- |[]]]; (split; [apply SpecCheck.user_nameb_ok; reflexivity|intros []]).
Qed.
Lemma laid_out_ready ob tags res dummy fuel : laid_out ob tags res dummy fuel -> blocks_ready ob tags res dummy fuel.
Proof. intros H. destruct H. constructor; assumption. Qed.
Lemma main_only ob g : component ob None g -> g = ob_main ob.
Proof. intros K. cbn in K. auto. Qed.
(** All the hypotheses that are new here, and what follows from the theorem. *)
Example staged_meets : exists code,
  (forall c g, component (fst count_preprocessed) c g -> exists env lv st, traversed (fst count_preprocessed) driven_found [] c g env lv st) /\
  blocks_ready (fst count_preprocessed) (snd count_preprocessed) driven_found [] 6 /\
  traverse_cfg 6 (tag_numbers (snd count_preprocessed)) (emitted_component (t_main driven_translation)) (emitted_functions driven_translation) = Ok code /\
  forall stack regs w op args w', stops (machine_words small_sem (fun z => negb (z =? 0)%Z) (fun _ => 0%Z)) count_object w op args w' ->
    exists k w'', esteps small_sem (fun z => negb (z =? 0)%Z) (fun z => Some z) k code (At 0 {| m_stack := stack; m_world := w; m_regs := regs |})
      = Some (Stopped op args w'') /\ forall l, w'' l = w' l.
Proof.
  assert (PF : forall f, In f (map fst (ob_functions count_object)) -> ~ In f ["return"; "revert"; "stop"; "selfdestruct"]).
  { intros f Hf Q. cbn in Hf. destruct Hf as [<- |[]]. cbn in Q. intuition discriminate. }
  destruct driven_meets as (code & SO & IO & NR & TB & E & LA & ST & TC & ML & _).
  assert (TV : forall c g, component (fst count_preprocessed) c g -> exists env lv st, traversed (fst count_preprocessed) driven_found [] c g env lv st).
  { intros [f|] g K.
    - destruct K as (k & L & <-). assert (f = "dec_1") as ->.
      { pose proof (lookup_In _ _ _ L) as I. apply (in_map fst) in I. assert (EF : map fst (ob_functions (fst count_preprocessed)) = ["dec_1"]) by (vm_compute; reflexivity). rewrite EF in I. cbn [fst In] in I. destruct I as [I|[]]. symmetry. exact I. }
      exists dec_env, dec_live, (laid dec_env dec_live). exact (dec_traversed k L).
    - rewrite (main_only _ _ K). exists main_env, count_live, (laid main_env count_live). exact main_traversed. }
  pose proof (laid_out_ready _ _ _ _ _ LA) as BR.
  exists code. split; [exact TV|]. split; [exact BR|]. split; [exact TC|]. intros stack regs w op args w'.
  exact (proj1 (compile_staged_keeps_meaning_partial [] ["dec_1"] start_trees count_object (fst count_preprocessed) (snd count_preprocessed) driven_found no_orders [] 6 40 (snd driven) code
    SO IO NR TB PF E TV BR (found_on_stack driven_ids) driven_given driven_runs ST TC _ _ small_sem _ _ _ ML (fun _ => 0%Z) w stack regs) op args w').
Qed.
