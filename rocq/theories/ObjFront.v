(** From the object as it is parsed to the conditions of the later passes. *)
From Coq Require Import Relations.
From Verif Require Import Base Lexical UtilModel UtilProps LevelProps LiveModel LiveProps CfgModel CfgSpec CfgProps RenameModel RenameProps MergePassProps InlineProps RemoveProps
  JumpModel JumpSpec ObjSem ObjSim ObjRenameModel ObjRenameSpec ObjRename ObjRenameProps ObjSsaSpec ObjDriverSpec ObjCombineSpec ObjLayoutSpec ObjProgram ObjInline.
From Verif Require JumpSplit.
Open Scope string_scope. Open Scope list_scope.

(** ** Names given by the renaming *)
Lemma next_index u i : i <= snd (new_variables u i).
Proof. destruct (dict_of_spec u i) as (F & _). exact (fd_le _ _ _ F). Qed.
Lemma dict_for_range fs f : forall i x y, lookup x (dict_for fs i f) = Some y -> exists n, i <= n /\ y = ("v" ++ str_nat n)%string.
Proof.
  induction fs as [|(h, k) fs IH]; intros i x y H; [discriminate|]. cbn [dict_for] in H. destruct (String.eqb h f).
  - destruct (dict_of_spec (function_unit k) i) as (F & _). destruct (fd_range _ _ _ F _ _ H) as (n & L & ->). exists n. split; [lia|reflexivity].
  - apply IH in H as (n & L & ->). exists n. split; [|reflexivity]. pose proof (next_index (function_unit k) i). lia.
Qed.
Lemma dict_for_apart fs f1 f2 : f1 <> f2 -> forall i x1 x2 y, lookup x1 (dict_for fs i f1) = Some y -> lookup x2 (dict_for fs i f2) = Some y -> False.
Proof.
  intros N. induction fs as [|(h, k) fs IH]; intros i x1 x2 y H1 H2; [discriminate|]. cbn [dict_for] in *. destruct (dict_of_spec (function_unit k) i) as (F & _).
  destruct (String.eqb_spec h f1) as [->|N1], (String.eqb_spec f1 f2) as [Q|_]; try contradiction.
  - destruct (fd_range _ _ _ F _ _ H1) as (n & L & ->). apply dict_for_range in H2 as (m & L2 & E). apply v_inj in E. lia.
  - destruct (String.eqb_spec h f2) as [->|N2]; [|eapply IH; eauto]. destruct (fd_range _ _ _ F _ _ H2) as (n & L & ->). apply dict_for_range in H1 as (m & L2 & E). apply v_inj in E. lia.
Qed.
Lemma dicts_apart ob c1 c2 x1 x2 y : lookup x1 (dicts ob c1) = Some y -> lookup x2 (dicts ob c2) = Some y -> c1 = c2.
Proof.
  assert (M : forall f u1 u2, lookup u1 (dicts ob None) = Some y -> lookup u2 (dicts ob (Some f)) = Some y -> False).
  { intros f u1 u2 H1 H2. cbn [dicts] in *. destruct (dict_of_spec (main_unit ob) 0) as (F & _). destruct (fd_range _ _ _ F _ _ H1) as (n & L & ->). apply dict_for_range in H2 as (m & L2 & E). apply v_inj in E. lia. }
  intros H1 H2. destruct c1 as [f1|], c2 as [f2|]; [|exfalso; eauto|exfalso; eauto|reflexivity]. destruct (string_dec f1 f2) as [->|N]; [reflexivity|]. exfalso. cbn [dicts] in *. eapply dict_for_apart; eauto.
Qed.
Lemma v_plain n : numeral ("v" ++ str_nat n) = false /\ prefix "0x" ("v" ++ str_nat n) = false /\ forall f, ("v" ++ str_nat n)%string <> ("out_" ++ f)%string.
Proof. split; [reflexivity|]. split; [reflexivity|]. intros f. discriminate. Qed.

Section Renamed.
Variable ob : cobject.
Hypothesis SO : source_ok ob.
Notation ob' := (rename_variables ob).
Notation d := (dicts ob).
Notation OO := (so_object ob SO).
Notation RN := (renames_variables ob).

Lemma given c x : defines_at ob c x -> exists n, rename_var (d c) x = ("v" ++ str_nat n)%string /\ lookup x (d c) = Some ("v" ++ str_nat n)%string.
Proof.
  intros D. destruct (dicts_fresh ob c x D) as (_ & _ & n & _ & L). exists n. split; [|exact L]. unfold rename_var, startswith. now rewrite (so_names _ SO c x D), L.
Qed.
Lemma ren_const dd x : prefix "0x" x = true -> rename_var dd x = x. Proof. intros H. unfold rename_var, startswith. now rewrite H. Qed.
Lemma ren_read c x : reads_at ob c x -> (prefix "0x" x = true /\ rename_var (d c) x = x) \/ (prefix "0x" x = false /\ defines_at ob c x).
Proof. intros R. destruct (prefix "0x" x) eqn:P; [left; split; [reflexivity|now apply ren_const]|right; split; [reflexivity|now apply (so_scoped _ SO)]]. Qed.
Lemma ren_inj c x y : defines_at ob c x -> defines_at ob c y -> rename_var (d c) x = rename_var (d c) y -> x = y. Proof. apply (rn_inj _ _ _ RN). Qed.

Lemma ren_lookup dd g x : lookup x (cl_blocks (rename_blocks dd g)) = option_map (rename_block dd) (lookup x (cl_blocks g)).
Proof. unfold rename_blocks. cbn [cl_blocks]. induction (cl_blocks g) as [|(k, y) l IH]; [reflexivity|]. cbn. destruct (String.eqb k x); [reflexivity|exact IH]. Qed.
Lemma ren_lookup_inv dd g x b' : lookup x (cl_blocks (rename_blocks dd g)) = Some b' -> exists b, lookup x (cl_blocks g) = Some b /\ b' = rename_block dd b.
Proof. rewrite ren_lookup. destruct (lookup x (cl_blocks g)) as [b|]; [|discriminate]. cbn [option_map]. intros H. exists b. split; [reflexivity|congruence]. Qed.
Lemma ren_component c g' : component ob' c g' <-> exists g, component ob c g /\ g' = rename_blocks (d c) g.
Proof.
  destruct c as [f|]; cbn [component].
  - rewrite (rn_fun _ _ _ RN). destruct (lookup f (ob_functions ob)) as [k|]; cbn [option_map].
    + split; [intros (k' & Q & <-); exists (fn_blocks k); split; [eauto|]; injection Q as <-; reflexivity|]. intros (g & (k0 & Q & <-) & ->). injection Q as <-. eexists. split; [reflexivity|reflexivity].
    + split; [intros (k' & Q & _); discriminate|intros (g & (k' & Q & _) & _); discriminate].
  - rewrite (rn_main _ _ _ RN). split; [intros <-; eauto|intros (g & <- & ->); reflexivity].
Qed.
Lemma ren_block c x b' : block_at ob' c x = Some b' -> exists b, block_at ob c x = Some b /\ b' = rename_block (d c) b.
Proof. rewrite (block_renamed_at ob ob' d RN). destruct (block_at ob c x) as [b|]; [|discriminate]. cbn [option_map]. intros H. exists b. split; [reflexivity|congruence]. Qed.
Lemma ren_fns : map fst (ob_functions ob') = map fst (ob_functions ob).
Proof.
  unfold rename_variables. cbn [ob_functions]. generalize (snd (new_variables (main_unit ob) 0)). generalize (ob_functions ob). induction l as [|(f, k) l IH]; intros i; [reflexivity|]. cbn [rename_functions map fst]. now rewrite IH.
Qed.
Lemma ren_function f k' : lookup f (ob_functions ob') = Some k' -> exists k, lookup f (ob_functions ob) = Some k /\ fn_args k' = rename_var_list (d (Some f)) (fn_args k) /\ fn_blocks k' = rename_blocks (d (Some f)) (fn_blocks k).
Proof. rewrite (rn_fun _ _ _ RN). destruct (lookup f (ob_functions ob)) as [k|]; [|discriminate]. cbn [option_map]. intros H. exists k. split; [reflexivity|]. injection H as <-. auto. Qed.
Lemma ren_return c : return_name ob' c = return_name ob c.
Proof. destruct c as [f|]; [|reflexivity]. cbn. rewrite (rn_fun _ _ _ RN). destruct (lookup f (ob_functions ob)); reflexivity. Qed.
Lemma ren_args c : arguments ob' c = rename_var_list (d c) (arguments ob c).
Proof. destruct c as [f|]; [|reflexivity]. cbn. rewrite (rn_fun _ _ _ RN). destruct (lookup f (ob_functions ob)); reflexivity. Qed.
Lemma ren_edge dd g x y : edge (rename_blocks dd g) x y <-> edge g x y.
Proof.
  unfold edge. rewrite ren_lookup. destruct (lookup x (cl_blocks g)) as [b|]; cbn [option_map]; [|split; intros (q & Q & _); discriminate].
  split; intros (q & Q & H); (eexists; split; [reflexivity|]); injection Q as <-; exact H.
Qed.
Lemma ren_alone dd g x y : alone (rename_blocks dd g) x y <-> alone g x y.
Proof.
  unfold alone. split; intros H; decompose [and] H; repeat split; intros; repeat (rewrite ren_edge in * ); eauto;
  match goal with K : forall z, _ -> z = _ |- _ => apply K; rewrite ?ren_edge in *; assumption end.
Qed.
Lemma ren_keys dd g : map fst (cl_blocks (rename_blocks dd g)) = map fst (cl_blocks g). Proof. cbn. rewrite map_map. reflexivity. Qed.
Lemma ren_names c x : block_name ob' c x <-> block_name ob c x.
Proof.
  split; intros (g & K & I).
  - apply ren_component in K as (g0 & K & ->). rewrite ren_keys in I. exists g0. auto.
  - exists (rename_blocks (d c) g). rewrite ren_keys. split; [apply ren_component; eauto|exact I].
Qed.
Lemma ren_consistent dd g : consistent g -> consistent (rename_blocks dd g).
Proof. intros C. apply rename_consistent. exact C. Qed.

Lemma block_of c g x b : component ob c g -> lookup x (cl_blocks g) = Some b -> block_at ob c x = Some b.
Proof. destruct c as [f|]; cbn; unfold block_at; cbn; [intros (k & -> & <-); auto|intros <-; auto]. Qed.
Lemma component_of c x b : block_at ob c x = Some b -> exists g, component ob c g /\ lookup x (cl_blocks g) = Some b.
Proof. unfold block_at, component. destruct c as [f|]; cbn; [|eauto]. destruct (lookup f (ob_functions ob)) as [k|]; [|discriminate]. cbn. eauto. Qed.

Lemma ren_split dd l pre i' post : map (rename_instr dd) l = pre ++ i' :: post -> exists p i q, l = p ++ i :: q /\ i' = rename_instr dd i /\ pre = map (rename_instr dd) p /\ post = map (rename_instr dd) q.
Proof.
  intros H. apply map_eq_app in H as (p & r & -> & <- & H). apply map_eq_cons in H as (i & q & -> & <- & <-). exists p, i, q. auto.
Qed.
Lemma ren_in dd l i' : In i' (map (rename_instr dd) l) -> exists i, In i l /\ i' = rename_instr dd i. Proof. rewrite in_map_iff. intros (i & <- & I). eauto. Qed.
Lemma ren_var dd l y : In y (rename_var_list dd l) -> exists x, In x l /\ y = rename_var dd x. Proof. unfold rename_var_list. rewrite in_map_iff. intros (x & <- & I). eauto. Qed.

Lemma ren_defines c y : defines_at ob' c y -> exists x, defines_at ob c x /\ y = rename_var (d c) x.
Proof.
  intros [(f & k' & -> & L & I)|(b & blk & i & B & I & O)].
  - apply ren_function in L as (k & L & A & _). rewrite A in I. apply ren_var in I as (x & I & ->). exists x. split; [left; eauto|reflexivity].
  - apply ren_block in B as (b0 & B & ->). apply ren_in in I as (j & I & ->). apply ren_var in O as (x & O & ->). exists x. split; [right; eauto 8|reflexivity].
Qed.
Lemma ren_defines' c x : defines_at ob c x -> defines_at ob' c (rename_var (d c) x).
Proof.
  intros [(f & k & -> & L & I)|(b & blk & i & B & I & O)].
  - left. exists f. rewrite (rn_fun _ _ _ RN), L. cbn [option_map]. eexists. split; [reflexivity|]. split; [reflexivity|]. cbn [fn_args]. now apply in_map.
  - right. exists b. rewrite (block_renamed_at ob ob' d RN), B. cbn [option_map]. eexists _, (rename_instr (d c) i). split; [reflexivity|]. split; [now apply (in_map (rename_instr (d c)))|now apply in_map].
Qed.
Lemma ren_reads c y : reads_at ob' c y -> exists x, reads_at ob c x /\ y = rename_var (d c) x.
Proof.
  intros (b & blk & B & R). apply ren_block in B as (b0 & B & ->). destruct R as [(i & I & O)|C].
  - apply ren_in in I as (j & I & ->). apply ren_var in O as (x & O & ->). exists x. split; [exists b, b0; split; [exact B|left; eauto]|reflexivity].
  - cbn [rename_block cb_cond] in C. destruct (cb_cond b0) as [x|] eqn:Q; [|discriminate]. exists x. split; [exists b, b0; auto|]. cbn [option_map] in C. congruence.
Qed.
Lemma new_name c y : defines_at ob' c y -> exists n, y = ("v" ++ str_nat n)%string.
Proof. intros H. apply ren_defines in H as (x & D & ->). destruct (given c x D) as (n & -> & _). eauto. Qed.
Lemma new_read c y : reads_at ob' c y -> (prefix "0x" y = true /\ reads_at ob c y) \/ exists n, y = ("v" ++ str_nat n)%string.
Proof.
  intros H. apply ren_reads in H as (x & R & ->). destruct (ren_read c x R) as [(P & ->)|(_ & D)]; [left; auto|right]. destruct (given c x D) as (n & -> & _). eauto.
Qed.
Lemma arg_defined c x : In x (arguments ob c) -> defines_at ob c x.
Proof. destruct c as [f|]; [|intros []]. cbn. destruct (lookup f (ob_functions ob)) as [k|] eqn:L; [|intros []]. intros I. left. eauto. Qed.
Lemma result_defined c g x : component ob c g -> In x (results g) -> defines_at ob c x.
Proof.
  intros K I. unfold results in I. apply in_flat_map in I as ((k, b) & J & I). apply in_flat_map in I as (i & J2 & I). right. exists k, b, i. split; [|auto].
  apply (block_of c g); [exact K|]. apply lookup_NoDup; [apply (oo_consistent _ OO c g K)|exact J].
Qed.
Lemma ren_results dd g : results (rename_blocks dd g) = rename_var_list dd (results g).
Proof.
  unfold results, rename_blocks, rename_var_list. cbn [cl_blocks]. induction (cl_blocks g) as [|(k, b) l IH]; [reflexivity|]. cbn [map flat_map snd fst rename_block cb_instrs]. rewrite IH, map_app. f_equal.
  induction (cb_instrs b) as [|i r IHr]; [reflexivity|]. cbn [map flat_map]. rewrite IHr, map_app. reflexivity.
Qed.

Theorem ren_object : object_ok ob'.
Proof.
  pose proof OO as H. constructor.
  - rewrite ren_fns. apply H.
  - rewrite ren_fns. apply H.
  - rewrite (rn_main _ _ _ RN). apply (oo_main _ H).
  - intros c g K. apply ren_component in K as (g0 & K & ->). apply ren_consistent, (oo_consistent _ H c g0 K).
  - intros c g x b K L. apply ren_component in K as (g0 & K & ->). apply ren_lookup_inv in L as (b0 & L & ->). exact (oo_links _ H c g0 x b0 K L).
  - intros c g x b K L. apply ren_component in K as (g0 & K & ->). apply ren_lookup_inv in L as (b0 & L & ->). destruct (oo_exits _ H c g0 x b0 K L) as (A & B & C & D).
    split; [exact A|]. split; [|split; [|exact D]].
    + intros T. destruct (B T) as (B1 & B2 & B3). split; [exact B1|]. split; [exact B2|]. cbn [rename_block cb_cond]. destruct (cb_cond b0); [discriminate|contradiction].
    + intros T. destruct (C T) as (C1 & pre & vs & E). split; [exact C1|]. cbn [rename_block cb_instrs]. rewrite E, map_app. eexists _, _. reflexivity.
  - intros c g x b K L. apply ren_component in K as (g0 & K & ->). apply ren_lookup_inv in L as (b0 & L & ->). destruct (oo_phis _ H c g0 x b0 K L) as (p & o & E & A & B).
    exists (map (rename_instr (d c)) p), (map (rename_instr (d c)) o). cbn [rename_block cb_instrs]. rewrite E, map_app. split; [reflexivity|]. split; intros i I; apply ren_in in I as (j & I & ->); [exact (A j I)|exact (B j I)].
  - intros c g x b i K L. apply ren_component in K as (g0 & K & ->). apply ren_lookup_inv in L as (b0 & L & ->). cbn [rename_block cb_split cb_instrs]. destruct (cb_split b0) as [j|] eqn:S; [|discriminate]. cbn [option_map]. intros Q. injection Q as <-.
    destruct (oo_split _ H c g0 x b0 j K L S) as (A & pre & E). split; [rewrite ren_fns; exact A|]. exists (map (rename_instr (d c)) pre). now rewrite E, map_app.
  - intros c g x b pre i post K L E I. apply ren_component in K as (g0 & K & ->). apply ren_lookup_inv in L as (b0 & L & ->). apply ren_split in E as (p & j & q & E & -> & -> & ->).
    destruct (oo_leaving _ H c g0 x b0 p j q K L E I) as (-> & A & B). split; [reflexivity|]. split; [exact A|exact B].
  - intros c g x b i K L I. apply ren_component in K as (g0 & K & ->). apply ren_lookup_inv in L as (b0 & L & ->). apply ren_in in I as (j & I & ->). rewrite ren_fns, ren_return.
    destruct (oo_plain _ H c g0 x b0 j K L I) as (A & B & C). split; [exact A|].
    assert (W : forall v, In v (li_ins (rename_instr (d c) j)) -> (In v (li_ins j)) \/ exists n, v = ("v" ++ str_nat n)%string).
    { intros v J. apply ren_var in J as (u & J & ->). destruct (ren_read c u) as [(P & ->)|(_ & D)]; [exists x, b0; split; [now apply (block_of c g0)|left; eauto]|auto|]. right. destruct (given c u D) as (n & -> & _). eauto. }
    split.
    + intros F v J. destruct (W v J) as [J1|(n & ->)]; [exact (B F v J1)|apply v_plain].
    + intros F r R J. destruct (W r J) as [J1|(n & E)]; [exact (C F r R J1)|]. destruct c as [f|]; [|discriminate]. cbn in R. destruct (lookup f (ob_functions ob)) as [k|]; [|discriminate]. destruct (cl_return (fn_blocks k)); [discriminate|].
      injection R as <-. symmetry in E. now apply v_plain in E.
  - intros c1 c2 x y w A B. apply ren_names in A. apply ren_names in B. exact (oo_names _ H c1 c2 x y w A B).
Qed.

Lemma ren_reached dd g X1 b r1 : reached_without (rename_blocks dd g) X1 b r1 -> exists r, r1 = map (rename_instr dd) r /\ forall X, incl (map (rename_var dd) X) X1 -> reached_without g X b r.
Proof.
  intros H. induction H as [s blk rest E L P|b i rest _ (r & E & IH) N|b blk b' blk' ps rest _ (r & E & IH) L I L' P N].
  - apply ren_lookup_inv in L as (b0 & L & ->). cbn [rename_block cb_instrs] in P. rewrite phis_rename in P. injection P as P1 <-. apply map_eq_nil in P1. eexists. split; [reflexivity|]. intros X _.
    apply (rw_start g X s b0); [exact E|exact L|]. destruct (phis_of (cb_instrs b0)). cbn in *. congruence.
  - symmetry in E. apply map_eq_cons in E as (j & q & -> & <- & <-). exists q. split; [reflexivity|]. intros X S. apply (rw_instr g X b j); [now apply IH|]. intros x I J. apply (N (rename_var dd x)); [apply S; now apply in_map|]. now apply (in_map (rename_var dd)).
  - symmetry in E. apply map_eq_nil in E. subst r. apply ren_lookup_inv in L as (b0 & L & ->). apply ren_lookup_inv in L' as (b1 & L' & ->). cbn [rename_block cb_instrs] in P. rewrite phis_rename in P. injection P as <- <-.
    eexists. split; [reflexivity|]. intros X S. apply (rw_edge g X b b0 b' b1 (fst (phis_of (cb_instrs b1)))); [now apply IH|exact L|exact I|exact L'|destruct (phis_of (cb_instrs b1)); reflexivity|].
    intros x J K. apply (N (rename_var dd x)); [apply S; now apply in_map|]. apply in_flat_map in K as (i & K1 & K2). apply in_flat_map. exists (rename_instr dd i). split; [now apply in_map|now apply (in_map (rename_var dd))].
Qed.
Lemma ren_reached' dd g b r : reached_without g [] b r -> reached_without (rename_blocks dd g) [] b (map (rename_instr dd) r).
Proof.
  intros H. induction H as [s blk rest E L P|b i rest _ IH N|b blk b' blk' ps rest _ IH L I L' P N].
  - apply (rw_start _ _ s (rename_block dd blk)); [exact E|rewrite ren_lookup, L; reflexivity|]. cbn [rename_block cb_instrs]. rewrite phis_rename, P. reflexivity.
  - apply (rw_instr _ _ b (rename_instr dd i)); [exact IH|intros x []].
  - apply (rw_edge _ _ b (rename_block dd blk) b' (rename_block dd blk') (map (rename_instr dd) ps)); [exact IH|rewrite ren_lookup, L; reflexivity|exact I|rewrite ren_lookup, L'; reflexivity| |intros x []].
    cbn [rename_block cb_instrs]. rewrite phis_rename, P. reflexivity.
Qed.
Lemma ren_read_here dd g b r y : read_here (rename_blocks dd g) b (map (rename_instr dd) r) y -> exists x, read_here g b r x /\ y = rename_var dd x.
Proof.
  intros H. remember (map (rename_instr dd) r) as r1 eqn:E. destruct H as [b i rest y I|b blk y L T C|b blk b' blk' k p y L S L' X I N].
  - symmetry in E. apply map_eq_cons in E as (j & q & -> & <- & <-). apply ren_var in I as (x & I & ->). exists x. split; [now constructor|reflexivity].
  - symmetry in E. apply map_eq_nil in E. subst r. apply ren_lookup_inv in L as (b0 & L & ->). cbn [rename_block cb_cond] in C. destruct (cb_cond b0) as [x|] eqn:Q; [|discriminate]. cbn [option_map] in C. exists x. split; [exact (rh_cond g b b0 x L T Q)|congruence].
  - symmetry in E. apply map_eq_nil in E. subst r. apply ren_lookup_inv in L as (b0 & L & ->). apply ren_lookup_inv in L' as (b1 & L' & ->). cbn [rename_block cb_instrs] in I. rewrite phis_rename in I. cbn [fst] in I. apply ren_in in I as (q & I & ->).
    cbn [rename_instr li_ins] in N. unfold rename_var_list in N. rewrite nth_error_map in N. destruct (nth_error (li_ins q) k) as [x|] eqn:Q; [|discriminate]. exists x. split; [exact (rh_phi g b b0 b' b1 k q x L S L' X I Q)|]. cbn in N. congruence.
Qed.
Lemma read_reads c g b rest x : component ob c g -> read_here g b rest x -> (exists blk, lookup b (cl_blocks g) = Some blk /\ incl rest (cb_instrs blk)) -> reads_at ob c x.
Proof.
  intros K H (bk & LB & INC). destruct H as [b i rest x I|b blk x L T C|b blk b' blk' k p x L S L' X I N].
  - exists b, bk. split; [now apply (block_of c g)|]. left. exists i. split; [apply INC; now left|exact I].
  - exists b, blk. split; [now apply (block_of c g)|]. now right.
  - exists b', blk'. split; [now apply (block_of c g)|]. left. exists p. split; [rewrite (phis_split (cb_instrs blk')); apply in_app_iff; now left|]. eapply nth_error_In; exact N.
Qed.
Lemma reached_inside g X b r : reached_without g X b r -> exists blk, lookup b (cl_blocks g) = Some blk /\ incl r (cb_instrs blk).
Proof.
  intros H. induction H as [s blk rest E L P|b i rest _ (blk & L & I) N|b blk b' blk' ps rest _ _ L I L' P N].
  - exists blk. split; [exact L|]. rewrite (phis_split (cb_instrs blk)), P. apply incl_appr, incl_refl.
  - exists blk. split; [exact L|]. intros z Z. apply I. now right.
  - exists blk'. split; [exact L'|]. rewrite (phis_split (cb_instrs blk')), P. apply incl_appr, incl_refl.
Qed.

Theorem ren_ssa : ssa ob'.
Proof.
  constructor.
  - intros c y R P. apply ren_reads in R as (x & R & ->). destruct (ren_read c x R) as [(Q & E)|(_ & D)]; [congruence|]. now apply ren_defines'.
  - intros c g K. apply ren_component in K as (g0 & K & ->). rewrite ren_args, ren_results. unfold rename_var_list. rewrite <- map_app. apply JumpSplit.NoDup_map_on; [|exact (so_once _ SO c g0 K)].
    intros x y I J. apply ren_inj; [destruct (in_app_or _ _ _ I)|destruct (in_app_or _ _ _ J)]; eauto using arg_defined, result_defined.
  - intros c1 c2 y D1 D2. apply ren_defines in D1 as (x1 & D1 & ->). apply ren_defines in D2 as (x2 & D2 & E). destruct (given c1 x1 D1) as (n & E1 & L1). destruct (given c2 x2 D2) as (m & E2 & L2).
    rewrite E1, E2 in E. rewrite <- E in L2. eapply dicts_apart; eauto.
  - intros c y D. apply new_name in D as (n & ->). apply v_plain.
  - intros c g b r1 y K R P N RW. apply ren_component in K as (g0 & K & ->). destruct (ren_reached _ _ _ _ _ RW) as (r & -> & LIFT). apply ren_read_here in R as (x & R & ->).
    assert (RE : reached_without g0 [x] b r) by (apply LIFT; intros z Z; exact Z).
    assert (RA : reads_at ob c x) by (eapply read_reads; eauto using reached_inside).
    destruct (ren_read c x RA) as [(Q & E)|(Q & D)]; [congruence|]. apply (so_strict _ SO c g0 b r x K R Q); [|exact RE]. intros I. apply N. rewrite ren_args. now apply in_map.
Qed.

Theorem ren_calls : calls_ok ob'.
Proof.
  constructor.
  - intros c b blk i k' B I L. apply ren_block in B as (b0 & B & ->). apply ren_in in I as (j & I & ->). apply ren_function in L as (k & L & EA & EB). destruct (so_arity _ SO c b b0 j k B I L) as (A1 & A2).
    rewrite EA. cbn [rename_instr li_ins li_outs li_op]. unfold rename_var_list. rewrite !map_length. split; [exact A1|]. intros b' blk' r B' J Q. apply ren_block in B' as (b1 & B' & ->). apply ren_in in J as (q & J & ->).
    cbn [rename_instr li_ins]. unfold rename_var_list. rewrite map_length. exact (A2 b' b1 q B' J Q).
  - intros c g K. apply ren_component in K as (g0 & K & ->). destruct (so_exits _ SO c g0 K) as (A & B). split; [exact A|]. intros x blk I L. apply ren_lookup_inv in L as (b0 & L & ->). cbn [rename_block cb_cond]. now rewrite (B x b0 I L).
  - intros c b blk p' i' q' k' B E L R. apply ren_block in B as (b0 & B & ->). apply ren_split in E as (p & i & q & E & -> & -> & ->). apply ren_function in L as (k & L & _ & EB). rewrite EB in R.
    destruct (so_stuck _ SO c b b0 p i q k B E L R) as (-> & S & N). split; [reflexivity|]. split; [exact S|]. intros y I RD. apply ren_var in I as (x & I & ->). apply ren_reads in RD as (z & RD & E2).
    assert (DX : defines_at ob c x) by (right; exists b, b0, i; split; [exact B|]; split; [rewrite E; apply in_app_iff; right; now left|exact I]).
    destruct (ren_read c z RD) as [(P & EZ)|(_ & DZ)].
    + destruct (given c x DX) as (n & EX & _). rewrite EX, EZ in E2. rewrite <- E2 in P. discriminate.
    + rewrite (ren_inj c x z DX DZ E2) in I. exact (N z I RD).
  - intros c g b blk K L H. apply ren_component in K as (g0 & K & ->). apply ren_lookup_inv in L as (b0 & L & ->). cbn [rename_block cb_instrs]. rewrite phis_rename. cbn [snd]. apply ren_reached'. apply (so_reached _ SO c g0 b b0 K L).
    destruct H as [H|H]; [left|right; exact H]. intros Q. apply H. cbn [rename_block cb_instrs]. now rewrite Q.
  - intros c y D. apply new_name in D as (n & ->). destruct (v_plain n) as (A & _ & B). split; [exact A|]. intros f _. apply B.
Qed.

Lemma ren_runs_out dd g x : runs_out (rename_blocks dd g) x -> runs_out g x.
Proof.
  intros H. induction H as [x b L E T|x b y L E ED _ IH]; apply ren_lookup_inv in L as (b0 & L & ->); cbn [rename_block cb_instrs] in E; apply map_eq_nil in E.
  - exact (out_here g x b0 L E T).
  - apply (proj1 (ren_edge _ _ _ _)) in ED. exact (out_later g x b0 y L E ED IH).
Qed.
Theorem ren_layout : laid_out ob'.
Proof.
  pose proof (so_layout _ SO) as H. constructor.
  - intros c g x b K L N. apply ren_component in K as (g0 & K & ->). apply ren_lookup_inv in L as (b0 & L & ->). apply (lo_conds _ H c g0 x b0 K L). intros Q. apply N. cbn [rename_block cb_cond]. now rewrite Q.
  - intros c g K. apply ren_component in K as (g0 & K & ->). intros s x S E. apply (proj1 (ren_edge _ _ _ _)) in E. exact (lo_start _ H c g0 K s x S E).
  - intros c g K. apply ren_component in K as (g0 & K & ->). intros a b T E. apply (proj1 (ren_edge _ _ _ _)) in E. apply (lo_chain _ H c g0 K a b); [|exact E]. clear E. induction T as [a b A|a b e _ IH1 _ IH2]; [apply t_step; now apply (proj1 (ren_alone _ _ _ _)) in A|eapply t_trans; eauto].
  - intros c g K. apply ren_component in K as (g0 & K & ->). intros x b L. apply ren_lookup_inv in L as (b0 & L & ->). exact (lo_typed _ H c g0 K x b0 L).
  - intros c g K. apply ren_component in K as (g0 & K & ->). intros x b L C i I. apply ren_lookup_inv in L as (b0 & L & ->). apply ren_in in I as (j & I & ->). exact (lo_joins _ H c g0 K x b0 L C j I).
  - intros c g x b i K L I LV. apply ren_component in K as (g0 & K & ->). apply ren_lookup_inv in L as (b0 & L & ->). apply ren_in in I as (j & I & ->). exact (lo_leaving _ H c g0 x b0 j K L I LV).
  - intros c g x b pre i y K L E F R ED RO. apply ren_component in K as (g0 & K & ->). apply ren_lookup_inv in L as (b0 & L & ->). apply ren_split in E as (p & j & q & E & -> & -> & Q). symmetry in Q. apply map_eq_nil in Q. subst q.
    rewrite ren_fns in F. rewrite ren_return in R. apply (proj1 (ren_edge _ _ _ _)) in ED. apply ren_runs_out in RO. exact (lo_calls _ H c g0 x b0 p j y K L E F R ED RO).
  - intros c g x b pre i K L T E F. apply ren_component in K as (g0 & K & ->). apply ren_lookup_inv in L as (b0 & L & ->). apply ren_split in E as (p & j & q & E & -> & -> & Q). symmetry in Q. apply map_eq_nil in Q. subst q.
    rewrite ren_fns in F. rewrite ren_return. exact (lo_exit _ H c g0 x b0 p j K L T E F).
  - intros f g x b K L E S. apply ren_component in K as (g0 & K & ->). apply ren_lookup_inv in L as (b0 & L & ->). apply map_eq_nil in E. destruct (lo_ends _ H f g0 x b0 K L E S) as (A & B). split; [exact A|]. intros y ED. apply (proj1 (ren_edge _ _ _ _)) in ED. exact (B y ED).
  - intros c y R P. destruct (new_read c y R) as [(_ & R0)|(n & ->)]; [exact (lo_literals _ H c y R0 P)|]. discriminate.
  - intros c g x b i K L I Q. apply ren_component in K as (g0 & K & ->). apply ren_lookup_inv in L as (b0 & L & ->). apply ren_in in I as (j & I & ->). destruct (lo_phis _ H c g0 x b0 j K L I Q) as (o & E). cbn [rename_instr li_outs]. rewrite E. eexists. reflexivity.
  - intros c g x b i K L I Q. apply ren_component in K as (g0 & K & ->). apply ren_lookup_inv in L as (b0 & L & ->). apply ren_in in I as (j & I & ->). cbn [rename_instr li_ins]. unfold rename_var_list. rewrite map_length. exact (lo_arity _ H c g0 x b0 j K L I Q).
  - intros c g x b i K L I. apply ren_component in K as (g0 & K & ->). apply ren_lookup_inv in L as (b0 & L & ->). apply ren_in in I as (j & I & ->). exact (lo_invalid _ H c g0 x b0 j K L I).
Qed.

Lemma ren_call_at f c b n : call_at ob' f c b n <-> call_at ob f c b n.
Proof.
  unfold call_at. rewrite (block_renamed_at ob ob' d RN). destruct (block_at ob c b) as [b0|]; cbn [option_map]; [|split; intros (? & ? & Q & _); discriminate].
  split; intros (blk & i & Q & N & O); injection Q as <-.
  - cbn [rename_block cb_instrs] in N. rewrite nth_error_map in N. destruct (nth_error (cb_instrs b0) n) as [j|] eqn:E; [|discriminate]. cbn in N. exists b0, j. split; [reflexivity|]. split; [exact E|]. injection N as <-. exact O.
  - eexists _, (rename_instr (d c) i). split; [reflexivity|]. split; [|exact O]. cbn [rename_block cb_instrs]. now apply map_nth_error.
Qed.
Lemma ren_calls_calls p f : calls ob' p f <-> calls ob p f.
Proof.
  split; intros H; (induction H as [p f b n C I|p q f _ IH1 _ IH2]; [|eapply calls_trans; eauto]); eapply calls_here.
  - apply ren_call_at in C. exact C.
  - now rewrite ren_fns in I.
  - apply ren_call_at. exact C.
  - now rewrite ren_fns.
Qed.
Lemma ren_order order : inlining_order ob order -> inlining_order ob' order.
Proof.
  intros H. constructor.
  - apply H.
  - intros f. rewrite ren_fns, (io_called _ _ H f). split; intros (A & c & b & n & C); (split; [exact A|]); exists c, b, n; now apply ren_call_at.
  - intros f p b n I J C N. apply ren_call_at in C. apply (io_sorted _ _ H f p b n I J C). intros Q. apply N. now apply ren_calls_calls.
Qed.
Lemma ren_once f : called_once ob' f <-> called_once ob f.
Proof.
  unfold called_once. rewrite ren_fns. split; intros (A & c & b & n & C & U); (split; [exact A|]); exists c, b, n; (split; [now apply ren_call_at|]); intros c' b' n' C'; apply U; now apply ren_call_at.
Qed.
Lemma source_tagless : tagless ob.
Proof. intros c b blk i B I. apply component_of in B as (g & K & L). destruct (oo_plain _ OO c g b blk i K L I) as (A & _). intros Q. apply A. rewrite Q. now left. Qed.
End Renamed.

(** ** What the later passes need *)
Lemma ready ob : object_ok ob -> ssa ob -> calls_ok ob -> laid_out ob -> object_readable ob /\ combinable ob /\ separable ob.
Proof.
  intros OO SS CA LO.
  assert (BK : forall c g x b, component ob c g -> lookup x (cl_blocks g) = Some b -> block_at ob c x = Some b).
  { intros c g x b. destruct c as [f|]; cbn; unfold block_at; cbn; [intros (k & -> & <-); auto|intros <-; auto]. }
  split; [|split].
  - constructor.
    + intros f k r L R I. assert (D : defines_at ob (Some f) r) by (left; eauto). destruct (ca_variables _ CA _ _ D) as (_ & N). cbn in R. rewrite L in R. destruct (cl_return (fn_blocks k)); [discriminate|]. injection R as <-.
      apply (N f); [|reflexivity]. apply lookup_In in L. change f with (fst (f, k)). now apply in_map.
    + intros f k x L I. apply (ca_variables _ CA (Some f)). left. eauto.
    + intros c g x b i o K L I O. apply (ca_variables _ CA c). right. exists x, b, i. eauto.
    + intros c g x b i v K L I O P. apply (lo_literals _ LO c); [|exact P]. exists x, b. split; [eauto|]. left. eauto.
    + intros c g x b v K L C P. apply (lo_literals _ LO c); [|exact P]. exists x, b. split; [eauto|]. now right.
    + apply LO.
    + apply LO.
    + apply LO.
  - constructor; try apply LO; try apply OO. intros c g K. constructor; [intros x b L; now apply (oo_links _ OO c g x b)|intros x b L; now apply (lo_conds _ LO c g x b)].
  - constructor; try apply LO. intros c g s x K S I. destruct (lookup x (cl_blocks g)) as [b|] eqn:L; [|apply lookup_None in L; contradiction].
    destruct (cb_instrs b) eqn:E; [destruct (successors b) eqn:Q|].
    + right. exists b. auto.
    + left. eapply path_of; [|exact S]. apply (ca_reached _ CA c g x b K L). right. congruence.
    + left. eapply path_of; [|exact S]. apply (ca_reached _ CA c g x b K L). left. congruence.
Qed.
