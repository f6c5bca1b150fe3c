(** Combination and removal of blocks keep the meaning of whole objects. *)
From Coq Require Import Relations.
From Verif Require Import Base Lexical UtilModel UtilProps UnifyProps LiveModel CfgModel CfgSpec CfgProps CombineProps MergePassProps RemoveProps JumpModel JumpSpec JumpProps CombineModel ObjCombineSpec ObjSem ObjSim ObjSplit ObjErase.
Open Scope string_scope. Open Scope list_scope.

(** ** Objects that agree on the blocks that can be reached *)
Section Agree.
Variables (ob ob' : cobject) (P : option string -> string -> Prop).
Hypothesis blocks : forall c x, P c x -> option_map core (block_at ob' c x) = option_map core (block_at ob c x).
Hypothesis closed : forall c x b y, P c x -> block_at ob c x = Some b -> cb_jump_to b = Some y \/ cb_falls_to b = Some y -> P c y.
Hypothesis starts : forall c s, start_at ob c = Some s -> P c s.
Hypothesis same_start : forall c, start_at ob' c = start_at ob c.
Hypothesis same_args : forall f, option_map fn_args (lookup f (ob_functions ob')) = option_map fn_args (lookup f (ob_functions ob)).
Context {V W : Type}.
Variable M : words V W.
Definition waits (k : suspended V) : Prop := P (sp_comp k) (sp_block k).
Definition inside (s : state V W) : Prop := match s with Doing c b _ _ _ calls => P c b /\ Forall waits calls | Done _ _ _ => True end.
Definition alike (s t : state V W) : Prop := s = t /\ inside s.

Lemma goto_agree c from to e w calls : (forall x, to = Some x -> P c x) -> Forall waits calls ->
  orel alike (goto M ob c from to e w calls) (goto M ob' c from to e w calls).
Proof.
  intros PT FW. unfold goto. destruct to as [x|]; [|exact I]. specialize (PT x eq_refl). pose proof (blocks c x PT) as Q.
  destruct (block_at ob c x) as [b|], (block_at ob' c x) as [b'|]; try discriminate; [|exact I]. unfold core in Q. injection Q as QI QT QJ QF QC QE.
  rewrite (arrive_core M b b' from e QI QE). destruct (arrive M b from e) as [[r e1]|]; [|exact I]. cbn. split; [reflexivity|]. split; assumption.
Qed.
Lemma agree_lock s t : alike s t -> exists m t', iter (ostep M ob') m t = Some t' /\ ends s = ends t' /\ orel alike (ostep M ob s) (ostep M ob' t').
Proof.
  intros (<- & IN). exists 0, s. split; [reflexivity|]. split; [reflexivity|]. destruct s as [c b rest e w calls|]; [|exact I]. destruct IN as (PB & FW). cbn [ostep]. destruct rest as [|i rest].
  - pose proof (blocks c b PB) as Q. destruct (block_at ob c b) as [blk|] eqn:BL, (block_at ob' c b) as [blk'|]; try discriminate; [|exact I]. unfold core in Q. injection Q as QI QT QJ QF QC QE.
    rewrite QT. destruct (String.eqb (cb_type blk) "mainExit"); [split; [reflexivity|exact I]|].
    assert (NX : next_block M blk' e = next_block M blk e) by (unfold next_block; now rewrite QT, QC, QJ, QF). rewrite NX. apply goto_agree; [|exact FW].
    intros x NB. apply (closed c b blk x PB BL). unfold next_block in NB.
    destruct (String.eqb (cb_type blk) "conditional"); [destruct (cb_cond blk); [|discriminate]; destruct (value M e _); [|discriminate]; destruct (o_truth M v); auto|].
    destruct (cb_jump_to blk); [left; exact NB|right; exact NB].
  - destruct (values M e (li_ins i)) as [args|]; [|exact I].
    pose proof (same_args (li_op i)) as QA. destruct (lookup (li_op i) (ob_functions ob)) as [k|] eqn:LF, (lookup (li_op i) (ob_functions ob')) as [k'|] eqn:LF'; cbn in QA; try discriminate.
    + injection QA as QA. rewrite QA. destruct (Nat.eqb (length (fn_args k)) (length args)); [|exact I].
      pose proof (same_start (Some (li_op i))) as QS. unfold start_at, blocks_at in QS. rewrite LF, LF' in QS. cbn [option_map] in QS. rewrite QS. apply goto_agree.
      * intros x Q. apply starts. unfold start_at, blocks_at. rewrite LF. exact Q.
      * constructor; [exact PB|exact FW].
    + destruct (String.eqb (li_op i) "functionReturn").
      * destruct calls as [|k calls]; [exact I|]. inversion FW; subst. destruct (Nat.eqb (length (sp_outs k)) (length args)); [|exact I]. split; [reflexivity|]. split; assumption.
      * destruct (mem (li_op i) stopping); [split; [reflexivity|exact I]|]. destruct (o_do M i args w) as [vs w']. split; [reflexivity|]. split; assumption.
Qed.
End Agree.
Lemma agree_same ob ob' (P : option string -> string -> Prop) :
  (forall c x, P c x -> option_map core (block_at ob' c x) = option_map core (block_at ob c x)) ->
  (forall c x b y, P c x -> block_at ob c x = Some b -> cb_jump_to b = Some y \/ cb_falls_to b = Some y -> P c y) ->
  (forall c s, start_at ob c = Some s -> P c s) -> (forall c, start_at ob' c = start_at ob c) ->
  (forall f, option_map fn_args (lookup f (ob_functions ob')) = option_map fn_args (lookup f (ob_functions ob))) -> same_meaning ob ob'.
Proof.
  intros B CL ST SS SA V W M w. apply (lockstep M ob ob' (alike P)).
  - intros s t H. eapply agree_lock; eauto.
  - unfold begins_at. pose proof (SS None) as Q. cbn in Q. rewrite Q. apply (goto_agree ob ob' P B M); [intros x Q'; exact (ST None x Q')|constructor].
Qed.
Lemma same_code_same ob ob' : same_code ob ob' -> same_meaning ob ob'.
Proof.
  intros [SM SF SB]. apply (agree_same ob ob' (fun _ _ => True)); auto.
  - intros [f|]; [|exact SM]. unfold start_at, blocks_at. specialize (SF f). destruct (lookup f (ob_functions ob')), (lookup f (ob_functions ob)); cbn in SF |- *; congruence.
  - intros f. specialize (SF f). destruct (lookup f (ob_functions ob')), (lookup f (ob_functions ob)); cbn in SF |- *; congruence.
Qed.

(** ** One component *)
Lemma put_comp_block c g ob x : blocks_at ob c <> None -> block_at (put_comp c g ob) c x = lookup x (cl_blocks g).
Proof. intros N. unfold block_at. rewrite (put_comp_at c g ob c N), opt_eqb_refl. reflexivity. Qed.
Lemma put_comp_other c g ob c' x : c' <> c -> block_at (put_comp c g ob) c' x = block_at ob c' x.
Proof.
  intros NC. unfold block_at. assert (Q : blocks_at (put_comp c g ob) c' = blocks_at ob c'); [|now rewrite Q]. destruct c as [f|], c' as [f'|]; cbn [put_comp blocks_at ob_main ob_functions]; try reflexivity; try congruence.
  destruct (lookup f (ob_functions ob)); [|reflexivity]. rewrite lookup_dict_set. destruct (String.eqb_spec f f'); [congruence|reflexivity].
Qed.
Lemma put_comp_start c g ob c' : blocks_at ob c <> None -> start_at (put_comp c g ob) c' = if opt_eqb c c' then cl_start g else start_at ob c'.
Proof. intros N. unfold start_at. rewrite (put_comp_at c g ob c' N). destruct (opt_eqb c c'); reflexivity. Qed.

Lemma count_all a l : (forall x, In x l -> x = a) -> count a l = length l.
Proof.
  induction l as [|x l IH]; intros H; [reflexivity|]. rewrite count_cons, (H x (or_introl eq_refl)), String.eqb_refl. cbn. f_equal. apply IH. intros; apply H; now right.
Qed.
Lemma NoDup_count x l : NoDup l -> count x l <= 1.
Proof.
  induction 1 as [|y l N ND IH]; [cbn; lia|]. rewrite count_cons. destruct (String.eqb_spec y x) as [->|]; [|lia]. rewrite count_zero; [lia|exact N].
Qed.
Lemma mergeable_lone g a b ba bb : consistent g -> MergePassProps.tidy g -> mergeable g a b ba bb -> length (cb_comes_from bb) <= 1.
Proof.
  intros C T [LA LB N SA PB NL ND NS]. rewrite <- (count_all a) by exact PB. pose proof (c_links g C a b) as Q. unfold arrivals, departures in Q. rewrite LA, LB in Q. rewrite Q. apply NoDup_count. eapply t_targets; eauto.
Qed.
Lemma merge_typed g a b ba bb g' : consistent g -> mergeable g a b ba bb -> merge_blocks a b g = Ok g' -> typed_exits g -> typed_exits g'.
Proof.
  intros C M E T x bx L. destruct (merge_lookup g a b ba bb C M) as (g2 & E2 & _ & LG & _). rewrite E in E2. injection E2 as <-. rewrite LG in L. destruct (String.eqb x a).
  - injection L as <-. exact (T b bb (mg_second _ _ _ _ _ M)).
  - destruct (String.eqb x b); [discriminate|]. destruct (lookup x (cl_blocks g)) as [b0|] eqn:L0; [|discriminate]. cbn in L. injection L as <-. exact (T x b0 L0).
Qed.
Lemma merge_joins g a b ba bb g' : consistent g -> MergePassProps.tidy g -> mergeable g a b ba bb -> merge_blocks a b g = Ok g' -> joins_have_phis g -> joins_have_phis g'.
Proof.
  intros C TT M E T x bx L LE i I. destruct (merge_lookup g a b ba bb C M) as (g2 & E2 & _ & LG & _). rewrite E in E2. injection E2 as <-. rewrite LG in L. destruct (String.eqb x a).
  - injection L as <-. change (In i (cb_instrs ba ++ cb_instrs bb)) in I. apply in_app_iff in I as [I|I].
    + exact (T a ba (mg_first _ _ _ _ _ M) LE i I).
    + exact (T b bb (mg_second _ _ _ _ _ M) (mergeable_lone g a b ba bb C TT M) i I).
  - destruct (String.eqb x b); [discriminate|]. destruct (lookup x (cl_blocks g)) as [b0|] eqn:L0; [|discriminate]. cbn in L. injection L as <-. apply (T x b0 L0); [|exact I].
    cbn [relist set_entries set_comes_from cb_comes_from] in LE. rewrite map_length in LE. exact LE.
Qed.

Lemma merge_cut c ob g a b ba bb g' : blocks_at ob c = Some g -> consistent g -> MergePassProps.tidy g -> typed_exits g -> joins_have_phis g -> mergeable g a b ba bb -> cb_cond ba = None ->
  merge_blocks a b g = Ok g' -> cut (put_comp c g' ob) ob c a a b (merged ba bb) (cb_instrs ba) (cb_instrs bb).
Proof.
  intros B C T TE JP M CN E. assert (N0 : blocks_at ob c <> None) by congruence. pose proof (mergeable_lone g a b ba bb C T M) as LO. pose proof (merge_consistent g a b ba bb g' C M E) as C'.
  destruct (merge_lookup g a b ba bb C M) as (g2 & E2 & _ & LG & ST & _). rewrite E in E2. injection E2 as <-. pose proof M as [LA LB N SA PB NL ND NS].
  assert (BA : forall x, block_at ob c x = lookup x (cl_blocks g)) by (intros x; unfold block_at; now rewrite B).
  assert (RI : forall o : option string, option_map (renamed a a) o = o).
  { intros [o|]; [|reflexivity]. cbn. unfold renamed. destruct (String.eqb_spec o a); congruence. }
  split.
  - rewrite put_comp_block by exact N0. rewrite LG, String.eqb_refl. reflexivity.
  - reflexivity.
  - exact (JP b bb LB LO).
  - unfold successors, opt_list in NL. split; intros Q; apply NL; apply in_app_iff; [left|right]; cbn [merged set_falls_to set_jump_to cb_jump_to cb_falls_to] in Q; change (cb_jump_to (merged ba bb)) with (cb_jump_to bb) in *; rewrite Q; now left.
  - exists ba. split; [now rewrite BA|]. split; [reflexivity|]. split; [reflexivity|].
    assert (SB : In b (successors ba)) by now apply SA. split; [|split].
    + intros Q. rewrite (proj1 (TE a ba LA) Q) in SB. exact SB.
    + intros Q. destruct (proj2 (TE a ba LA) Q) as (J1 & J2). pose proof (t_targets g T a ba LA) as NT. unfold successors in *. destruct (cb_jump_to ba) as [j|]; [|congruence]. destruct (cb_falls_to ba) as [k|]; [|congruence].
      cbn in *. assert (j = b) by (apply SA; auto). assert (k = b) by (apply SA; auto). subst. inversion NT as [|? ? X _]. apply X. now left.
    + unfold successors in *. destruct (cb_jump_to ba) as [j|] eqn:J; [apply SA; cbn; auto|]. cbn in *. destruct (cb_falls_to ba) as [k|]; [|destruct SB]. f_equal. apply SA. now left.
  - exists bb. split; [now rewrite BA|reflexivity].
  - rewrite put_comp_block by exact N0. rewrite LG. destruct (String.eqb_spec b a); [congruence|]. now rewrite String.eqb_refl.
  - exact N.
  - intros x bx NX Q. rewrite put_comp_block in Q by exact N0. rewrite LG in Q. destruct (String.eqb_spec x a); [contradiction|]. destruct (String.eqb_spec x b); [discriminate|].
    destruct (lookup x (cl_blocks g)) as [b0|] eqn:L0; [|discriminate]. cbn in Q. injection Q as <-. cbn [relist set_entries cb_entries].
    assert (NA : ~ In a (cb_entries b0)).
    { intros I. apply (c_entries g C x b0 L0) in I. apply count_In in I. pose proof (c_links g C a x) as Q. unfold arrivals, departures in Q. rewrite L0, LA in Q. rewrite Q in I. apply count_In in I. apply SA in I. congruence. }
    split.
    + intros I. apply in_map_iff in I as (z & Q & I). unfold subst in Q. destruct (String.eqb_spec z b); congruence.
    + exists b0. split; [now rewrite BA|]. unfold core. cbn [relist set_entries set_comes_from cb_instrs cb_type cb_jump_to cb_falls_to cb_cond cb_entries]. rewrite !RI. f_equal. rewrite map_map.
      rewrite <- (map_id (cb_entries b0)) at 1. apply map_ext_in. intros z I. unfold renamed, subst. destruct (String.eqb_spec z b) as [->|]; [now rewrite String.eqb_refl|]. destruct (String.eqb_spec z a); [congruence|reflexivity].
  - intros c' x NC. rewrite put_comp_other by exact NC. reflexivity.
  - intros f. symmetry. apply put_comp_args.
  - intros c'. rewrite put_comp_start by exact N0. destruct (opt_eqb c' c) eqn:Q.
    + apply opt_eqb_eq in Q as ->. rewrite opt_eqb_refl, RI, ST. unfold start_at. now rewrite B.
    + rewrite opt_eqb_neq; [reflexivity|]. intros ->. rewrite opt_eqb_refl in Q. discriminate.
  - intros x bx y Q TO. rewrite put_comp_block in Q |- * by exact N0. assert (ED : edge g' x y) by (exists bx; auto). destruct (key_lookup y _ (edge_target _ _ _ C' ED)) as (bY & ->). discriminate.
  - intros x Q. rewrite put_comp_start, opt_eqb_refl in Q by exact N0. rewrite put_comp_block by exact N0. destruct (c_start g' C') as (st & ST0 & I). rewrite Q in ST0. injection ST0 as <-.
    apply key_lookup in I as (bx & ->). discriminate.
Qed.

Lemma put_comp_same c g ob : blocks_at ob c = Some g -> same_meaning ob (put_comp c g ob).
Proof.
  intros B. assert (N : blocks_at ob c <> None) by congruence. apply (agree_same _ _ (fun _ _ => True)); auto.
  - intros c' x _. destruct (c0_dec c c') as [->|NC]; [|now rewrite put_comp_other]. rewrite put_comp_block by exact N. unfold block_at. now rewrite B.
  - intros c'. rewrite put_comp_start by exact N. destruct (opt_eqb c c') eqn:Q; [|reflexivity]. apply opt_eqb_eq in Q as <-. unfold start_at. now rewrite B.
  - intros f. apply put_comp_args.
Qed.
Lemma merges_same c ob g g' : blocks_at ob c = Some g -> typed_exits g -> joins_have_phis g -> merges g g' -> same_meaning ob (put_comp c g' ob) /\ typed_exits g' /\ joins_have_phis g'.
Proof.
  intros B TE JP MS. assert (N : blocks_at ob c <> None) by congruence. induction MS as [|a b ba bb g1 g2 _ (IH & T1 & J1) C T M CN E].
  - split; [now apply put_comp_same|auto].
  - split; [|split; [eapply merge_typed; eauto|eapply merge_joins; eauto]]. eapply same_meaning_trans; [exact IH|]. apply same_meaning_sym. rewrite <- (put_comp_twice c g1 g2 ob).
    eapply cut_same. eapply (merge_cut c (put_comp c g1 ob) g1); eauto. rewrite (put_comp_at c g1 ob c N), opt_eqb_refl. reflexivity.
Qed.

(** Removal. *)
Lemma remove_same c ob g g' : blocks_at ob c = Some g -> consistent g -> remove_blocks_block_list g = Ok g' -> same_meaning ob (put_comp c g' ob).
Proof.
  intros B C R. assert (N : blocks_at ob c <> None) by congruence. destruct (c_start g C) as (s & S & _).
  destruct (remove_blocks_reachable g s C S) as (g2 & R2 & S2 & LG & _). rewrite R in R2. injection R2 as <-.
  apply (agree_same _ _ (fun c' x => c' = c -> reachable g s x)).
  - intros c' x P. destruct (c0_dec c c') as [->|NC]; [|now rewrite put_comp_other]. rewrite put_comp_block by exact N. unfold block_at. rewrite B. f_equal.
    destruct (lookup x (cl_blocks g)) as [b|] eqn:L; [apply LG; auto|]. destruct (lookup x (cl_blocks g')) as [b|] eqn:L'; [|reflexivity]. apply LG in L' as (L' & _). congruence.
  - intros c' x b y P BL TO ->. unfold block_at in BL. rewrite B in BL. eapply rt_trans; [apply P; reflexivity|]. apply rt_step. exists b. auto.
  - intros c' s' Q ->. unfold start_at in Q. rewrite B, S in Q. injection Q as <-. apply rt_refl.
  - intros c'. rewrite put_comp_start by exact N. destruct (opt_eqb c c') eqn:Q; [|reflexivity]. apply opt_eqb_eq in Q as <-. unfold start_at. rewrite B. congruence.
  - intros f. apply put_comp_args.
Qed.

(** ** Whole objects *)
Lemma put_all : forall todo ob ob', NoDup todo -> (forall c, ~ In c todo -> blocks_at ob' c = blocks_at ob c) ->
  (forall c, In c todo -> exists g g', blocks_at ob c = Some g /\ blocks_at ob' c = Some g' /\ forall ox, blocks_at ox c = Some g -> same_meaning ox (put_comp c g' ox)) ->
  (forall f, option_map fn_args (lookup f (ob_functions ob')) = option_map fn_args (lookup f (ob_functions ob))) -> same_meaning ob ob'.
Proof.
  induction todo as [|c todo IH]; intros ob ob' ND OUT IN AR.
  - assert (BA : forall c, blocks_at ob' c = blocks_at ob c) by (intros c; apply OUT; auto). apply (agree_same _ _ (fun _ _ => True)); auto.
    + intros c x _. unfold block_at. now rewrite BA.
    + intros c. unfold start_at. now rewrite BA.
  - inversion ND as [|? ? N1 N2]; subst. destruct (IN c (or_introl eq_refl)) as (g & g' & B & B' & CH). assert (N : blocks_at ob c <> None) by congruence.
    eapply same_meaning_trans; [apply (CH ob B)|]. apply IH; [exact N2| | |].
    + intros c' NI. rewrite (put_comp_at c g' ob c' N). destruct (opt_eqb c c') eqn:Q; [apply opt_eqb_eq in Q as <-; exact B'|]. apply OUT. intros [->|I]; [rewrite opt_eqb_refl in Q; discriminate|contradiction].
    + intros c' I. destruct (IN c' (or_intror I)) as (h & h' & X & X' & CH'). exists h, h'. rewrite (put_comp_at c g' ob c' N), opt_eqb_neq; [auto|]. intros ->. contradiction.
    + intros f. rewrite AR. symmetry. apply put_comp_args.
Qed.
Definition comp_names (ob : cobject) : list (option string) := None :: map Some (map fst (ob_functions ob)).
Lemma comp_names_In ob c : In c (comp_names ob) <-> blocks_at ob c <> None.
Proof.
  unfold comp_names. destruct c as [f|]; cbn.
  - rewrite in_map_iff. split.
    + intros [Q|(x & Q & I)]; [discriminate|]. injection Q as ->. apply key_lookup in I as (k & ->). discriminate.
    + destruct (lookup f (ob_functions ob)) as [k|] eqn:L; [|intros Q; now elim Q]. intros _. right. exists f. split; [reflexivity|]. exact (lookup_In_key _ _ _ L).
  - split; [discriminate|auto].
Qed.
Lemma put_comps ob ob' : NoDup (map fst (ob_functions ob)) -> map fst (ob_functions ob') = map fst (ob_functions ob) ->
  (forall c g, blocks_at ob c = Some g -> exists g', blocks_at ob' c = Some g' /\ forall ox, blocks_at ox c = Some g -> same_meaning ox (put_comp c g' ox)) ->
  (forall f, option_map fn_args (lookup f (ob_functions ob')) = option_map fn_args (lookup f (ob_functions ob))) -> same_meaning ob ob'.
Proof.
  intros ND NM H AR. apply (put_all (comp_names ob)); [| | |exact AR].
  - unfold comp_names. constructor; [intros I; apply in_map_iff in I as (? & Q & _); discriminate|]. apply FinFun.Injective_map_NoDup; [intros a b Q; congruence|exact ND].
  - intros c NI. rewrite comp_names_In in NI. destruct (blocks_at ob c) eqn:B; [elim NI; discriminate|]. destruct (blocks_at ob' c) eqn:B'; [|reflexivity].
    exfalso. assert (I : In c (comp_names ob')) by (apply comp_names_In; congruence). unfold comp_names in I. rewrite NM in I. fold (comp_names ob) in I. apply comp_names_In in I. congruence.
  - intros c I. apply comp_names_In in I. destruct (blocks_at ob c) as [g|] eqn:B; [|congruence]. destruct (H c g B) as (g' & B' & S). exists g, g'. auto.
Qed.

Lemma combine_functions_ok so fns (h : clist -> clist) : forall (fs : list (string * JumpModel.cfun)) acc, (forall f k, In (f, k) fs -> combine_remove_block_list so fns (fn_blocks k) = Ok (h (fn_blocks k))) ->
  for_each (fun acc nf => do g <- combine_remove_block_list so fns (fn_blocks (snd nf)); Ok (acc ++ [(fst nf, {| fn_args := fn_args (snd nf); fn_blocks := g |})])) fs acc
  = Ok (acc ++ map (fun fk => (fst fk, {| fn_args := fn_args (snd fk); fn_blocks := h (fn_blocks (snd fk)) |})) fs).
Proof.
  induction fs as [|[f k] fs IH]; intros acc H; [cbn; now rewrite app_nil_r|]. cbn [for_each snd fst]. rewrite (H f k) by now left. cbn [bind]. rewrite IH by (intros f' k' I; apply (H f' k'); now right).
  rewrite <- app_assoc. reflexivity.
Qed.
Definition run_or (r : result clist) (g : clist) : clist := match r with Ok g' => g' | Raise _ => g end.
Lemma combine_object_ok so ob : NoDup (map fst (ob_functions ob)) -> (forall c g, blocks_at ob c = Some g -> exists g', combine_remove_block_list so (map fst (ob_functions ob)) g = Ok g') ->
  exists ob', combine_remove_object so ob = Ok ob' /\ map fst (ob_functions ob') = map fst (ob_functions ob)
    /\ (forall c g, blocks_at ob c = Some g -> exists g', combine_remove_block_list so (map fst (ob_functions ob)) g = Ok g' /\ blocks_at ob' c = Some g')
    /\ (forall f, option_map fn_args (lookup f (ob_functions ob')) = option_map fn_args (lookup f (ob_functions ob))).
Proof.
  intros ND H. unfold combine_remove_object, combine_remove_functions. destruct (H None (ob_main ob) eq_refl) as (m & EM). rewrite EM. cbn [bind].
  set (fns := map fst (ob_functions ob)) in *. set (h := fun g => run_or (combine_remove_block_list so fns g) g).
  rewrite (combine_functions_ok so fns h).
  - cbn [bind app]. eexists. split; [reflexivity|]. cbn [ob_functions]. split; [rewrite map_map; reflexivity|]. split.
    + intros c g B. destruct (H c g B) as (g' & E). exists g'. split; [exact E|]. destruct c as [f|]; [|cbn in B |- *; injection B as <-; congruence]. cbn in B |- *.
      pose proof (lookup_map_key (fun _ k => {| fn_args := fn_args k; fn_blocks := h (fn_blocks k) |}) f (ob_functions ob)) as Q. cbn beta in Q. rewrite Q.
      destruct (lookup f (ob_functions ob)) as [k|]; [|discriminate]. cbn in B |- *. injection B as ->. unfold h. rewrite E. reflexivity.
    + intros f. pose proof (lookup_map_key (fun _ k => {| fn_args := fn_args k; fn_blocks := h (fn_blocks k) |}) f (ob_functions ob)) as Q. cbn beta in Q. rewrite Q. destruct (lookup f (ob_functions ob)); reflexivity.
  - intros f k I. destruct (H (Some f) (fn_blocks k)) as (g' & E); [cbn; rewrite (dict_In f k _ ND I); reflexivity|]. unfold h. rewrite E. reflexivity.
Qed.
Lemma combine_remove_same so fns g : consistent g -> MergePassProps.tidy g -> start_first g -> no_closed_chain g -> typed_exits g -> joins_have_phis g ->
  exists g', combine_remove_block_list so fns g = Ok g' /\ forall c ox, blocks_at ox c = Some g -> same_meaning ox (put_comp c g' ox).
Proof.
  intros C T SF NC TE JP. unfold combine_remove_block_list. destruct (combine_blocks_merges so fns g C T SF NC) as (g1 & E1 & C1 & _ & _ & _ & MS). rewrite E1. cbn [bind].
  destruct (c_start g1 C1) as (s & S1 & _). destruct (remove_blocks_reachable g1 s C1 S1) as (g2 & E2 & _). exists g2. split; [exact E2|]. intros c ox B.
  eapply same_meaning_trans; [apply (merges_same c ox g g1 B TE JP MS)|]. rewrite <- (put_comp_twice c g1 g2 ox). apply (remove_same c (put_comp c g1 ox) g1); auto. rewrite put_comp_at, opt_eqb_refl by congruence. reflexivity.
Qed.
