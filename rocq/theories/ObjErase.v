(** Jumps, tags and splitting at calls: the object without the additions does
    what the original did. *)
From Verif Require Import Base Lexical UtilModel UtilProps UnifyProps LiveModel CfgModel CfgSpec CfgProps CombineProps JumpModel JumpSpec JumpTrace JumpProofs JumpProps ObjSem ObjSim ObjSplit.
Open Scope string_scope. Open Scope list_scope.

Section Erase.
Variable fns : list string.
Variable rn : option string -> option string.
Definition kept (c : option string) (i : linstr) : list linstr :=
  flat_map (fun e => match e with Do j => [j] | Test _ _ => [] end) (before fns (rn c) (Do i)).
Definition kept_instrs (c : option string) (l : list linstr) : list linstr := flat_map (kept c) l.
Definition erase_block (c : option string) (b : cblock) : cblock := set_instrs (kept_instrs c (cb_instrs b)) b.
Definition erase_list (c : option string) (g : clist) : clist :=
  {| cl_blocks := map (fun kb => (fst kb, erase_block c (snd kb))) (cl_blocks g); cl_start := cl_start g; cl_terminal := cl_terminal g; cl_return := cl_return g |}.
Definition own_args (f : string) (args : list string) : list string := filter (fun x => negb (opt_eqb (Some x) (rn (Some f)))) args.
Definition erase_object (ob : cobject) : cobject :=
  {| ob_main := erase_list None (ob_main ob);
     ob_functions := map (fun fk => (fst fk, {| fn_args := own_args (fst fk) (fn_args (snd fk)); fn_blocks := erase_list (Some (fst fk)) (fn_blocks (snd fk)) |})) (ob_functions ob) |}.

Lemma lookup_map_key {A B} (h : string -> A -> B) x d : lookup x (map (fun kb => (fst kb, h (fst kb) (snd kb))) d) = option_map (h x) (lookup x d).
Proof. induction d as [|[k v] d IH]; [reflexivity|]. cbn [map fst snd lookup]. destruct (String.eqb_spec k x) as [->|]; [reflexivity|exact IH]. Qed.
Lemma erase_lookup ob f : lookup f (ob_functions (erase_object ob)) = option_map (fun k => {| fn_args := own_args f (fn_args k); fn_blocks := erase_list (Some f) (fn_blocks k) |}) (lookup f (ob_functions ob)).
Proof. exact (lookup_map_key (fun f k => {| fn_args := own_args f (fn_args k); fn_blocks := erase_list (Some f) (fn_blocks k) |}) f (ob_functions ob)). Qed.
Lemma erase_blocks_at ob c : blocks_at (erase_object ob) c = option_map (erase_list c) (blocks_at ob c).
Proof. destruct c as [f|]; [|reflexivity]. cbn [blocks_at]. rewrite erase_lookup. destruct (lookup f (ob_functions ob)); reflexivity. Qed.
Lemma erase_list_lookup c g x : lookup x (cl_blocks (erase_list c g)) = option_map (erase_block c) (lookup x (cl_blocks g)).
Proof. exact (lookup_map_key (fun _ => erase_block c) x (cl_blocks g)). Qed.
Lemma erase_block_at ob c x : block_at (erase_object ob) c x = option_map (erase_block c) (block_at ob c x).
Proof. unfold block_at. rewrite erase_blocks_at. destruct (blocks_at ob c) as [g|]; [|reflexivity]. cbn [option_map]. apply erase_list_lookup. Qed.

(** One component replaced. *)
Definition put_comp (c : option string) (g : clist) (ob : cobject) : cobject :=
  match c with
  | None => {| ob_main := g; ob_functions := ob_functions ob |}
  | Some f => {| ob_main := ob_main ob;
                 ob_functions := match lookup f (ob_functions ob) with
                                 | Some k => dict_set f {| fn_args := fn_args k; fn_blocks := g |} (ob_functions ob)
                                 | None => ob_functions ob
                                 end |}
  end.
Lemma put_comp_at c g ob c' : blocks_at ob c <> None -> blocks_at (put_comp c g ob) c' = if opt_eqb c c' then Some g else blocks_at ob c'.
Proof.
  intros N. destruct c as [f|], c' as [f'|]; cbn [put_comp blocks_at opt_eqb ob_main ob_functions]; try reflexivity.
  cbn in N. destruct (lookup f (ob_functions ob)) as [k|] eqn:L; [|elim N; reflexivity]. rewrite lookup_dict_set. destruct (String.eqb f f'); reflexivity.
Qed.
Lemma put_comp_args c g ob f : option_map fn_args (lookup f (ob_functions (put_comp c g ob))) = option_map fn_args (lookup f (ob_functions ob)).
Proof.
  destruct c as [f'|]; [|reflexivity]. cbn [put_comp ob_functions]. destruct (lookup f' (ob_functions ob)) as [k|] eqn:L; [|reflexivity]. rewrite lookup_dict_set.
  destruct (String.eqb_spec f' f) as [<-|]; [rewrite L; reflexivity|reflexivity].
Qed.
Lemma dict_set_twice {A} k (v1 v2 : A) d : dict_set k v2 (dict_set k v1 d) = dict_set k v2 d.
Proof.
  induction d as [|[x v] d IH]; cbn [dict_set]; [now rewrite String.eqb_refl|]. destruct (String.eqb_spec x k) as [->|N]; cbn [dict_set]; [now rewrite String.eqb_refl|].
  destruct (String.eqb_spec x k); [congruence|]. now rewrite IH.
Qed.
Lemma put_comp_twice c g1 g2 ob : put_comp c g2 (put_comp c g1 ob) = put_comp c g2 ob.
Proof.
  destruct c as [f|]; [|reflexivity]. cbn [put_comp ob_functions ob_main]. destruct (lookup f (ob_functions ob)) as [k|] eqn:L; [|now rewrite L].
  rewrite lookup_dict_set, String.eqb_refl. cbn [fn_args]. now rewrite dict_set_twice.
Qed.

Lemma put_same_code c g g' ob : blocks_at ob c = Some g -> cl_start g' = cl_start g ->
  (forall x, option_map core (lookup x (cl_blocks (erase_list c g'))) = option_map core (lookup x (cl_blocks (erase_list c g)))) ->
  same_code (erase_object ob) (erase_object (put_comp c g' ob)).
Proof.
  intros B S L. assert (N : blocks_at ob c <> None) by congruence.
  assert (SA : forall c', option_map cl_start (blocks_at (erase_object (put_comp c g' ob)) c') = option_map cl_start (blocks_at (erase_object ob) c')).
  { intros c'. rewrite !erase_blocks_at, (put_comp_at c g' ob c' N). destruct (opt_eqb c c') eqn:Q; [|reflexivity]. apply opt_eqb_eq in Q as <-. rewrite B. cbn. now rewrite S. }
  split.
  - specialize (SA None). cbn in SA. injection SA as SA. exact SA.
  - intros f. rewrite !erase_lookup. pose proof (put_comp_args c g' ob f) as A. specialize (SA (Some f)). rewrite !erase_blocks_at in SA. cbn [blocks_at] in SA.
    destruct (lookup f (ob_functions (put_comp c g' ob))), (lookup f (ob_functions ob)); cbn in A, SA |- *; try discriminate; [|reflexivity]. injection A as A. injection SA as SA. now rewrite A, SA.
  - intros c' x. unfold block_at. rewrite !erase_blocks_at, (put_comp_at c g' ob c' N). destruct (opt_eqb c c') eqn:Q; [|reflexivity]. apply opt_eqb_eq in Q as <-. rewrite B. cbn [option_map]. apply L.
Qed.

Lemma put_cut c g id i b g' ob : blocks_at ob c = Some g -> consistent g -> splittable g id b -> split_block id i g = Ok g' ->
  (forall j, In j (skipn (i + 1) (cb_instrs b)) -> li_op j <> "PhiFunction") ->
  (forall j, li_op j <> "PhiFunction" -> forall j', In j' (kept c j) -> li_op j' <> "PhiFunction") ->
  cut (erase_object ob) (erase_object (put_comp c g' ob)) c id (first_id id) (second_id id) (erase_block c b)
    (kept_instrs c (firstn (i + 1) (cb_instrs b))) (kept_instrs c (skipn (i + 1) (cb_instrs b))).
Proof.
  intros B C SP R NP NK. assert (N : blocks_at ob c <> None) by congruence. destruct (split_block_lookup g id i b C SP) as (g2 & R2 & K & LG & ST & _). rewrite R in R2. injection R2 as <-.
  destruct SP as [L NL ND F1 F2]. pose proof (first_ne id) as N1. pose proof (second_ne id) as N2. pose proof (halves_ne id) as N3.
  assert (BA : forall x, block_at (erase_object ob) c x = option_map (erase_block c) (lookup x (cl_blocks g))) by (intros x; rewrite erase_block_at; unfold block_at; rewrite B; reflexivity).
  assert (BA' : forall x, block_at (erase_object (put_comp c g' ob)) c x = option_map (erase_block c) (lookup x (cl_blocks g'))).
  { intros x. rewrite erase_block_at. unfold block_at. rewrite (put_comp_at c g' ob c N). replace (opt_eqb c c) with true by (symmetry; apply opt_eqb_eq; reflexivity). reflexivity. }
  assert (SL : forall x, In x (successors b) -> x <> id) by (intros x I ->; contradiction).
  split.
  - rewrite BA, L. reflexivity.
  - cbn [erase_block set_instrs cb_instrs]. unfold kept_instrs. rewrite <- flat_map_app, firstn_skipn. reflexivity.
  - intros j I. apply in_flat_map in I as (j0 & I & J). apply (NK j0); auto.
  - cbn [erase_block set_instrs cb_jump_to cb_falls_to]. unfold successors in SL. split; intros Q; rewrite Q in SL; apply (SL id); try reflexivity; apply in_app_iff; [left|right]; now left.
  - exists (erase_block c (first_half id i b)). split; [|split; [reflexivity|]; split; [reflexivity|]; split; [discriminate|]; split; [discriminate|reflexivity]].
    rewrite BA', LG. destruct (String.eqb_spec (first_id id) (second_id id)); [congruence|]. rewrite String.eqb_refl. reflexivity.
  - exists (erase_block c (second_half id i b)). split; [|reflexivity]. rewrite BA', LG, String.eqb_refl. reflexivity.
  - rewrite BA. destruct (lookup (second_id id) (cl_blocks g)) eqn:Q; [|reflexivity]. elim F2. exact (lookup_In_key _ _ _ Q).
  - exact N3.
  - intros x bx NX Q. rewrite BA in Q. destruct (lookup x (cl_blocks g)) as [bg|] eqn:LX; [|discriminate]. cbn in Q. injection Q as <-. split.
    + intros I. apply F2. cbn [erase_block set_instrs cb_entries] in I. apply (c_entries g C x bg LX) in I. apply count_In in I. pose proof (c_links g C (second_id id) x) as Q. unfold arrivals in Q. rewrite LX in Q.
      destruct (in_dec string_dec (second_id id) (map fst (cl_blocks g))) as [|NI]; [assumption|]. rewrite (absent_departures g _ x NI) in Q. lia.
    + exists (erase_block c (edit id bg)). split.
      * rewrite BA', LG. pose proof (lookup_In_key _ _ _ LX) as KX. destruct (String.eqb_spec x (second_id id)) as [->|]; [contradiction|]. destruct (String.eqb_spec x (first_id id)) as [->|]; [contradiction|].
        destruct (String.eqb_spec x id); [contradiction|]. rewrite LX. reflexivity.
      * reflexivity.
  - intros c' x NC. unfold block_at. rewrite !erase_blocks_at, (put_comp_at c g' ob c' N). rewrite (opt_eqb_neq c c'); [reflexivity|congruence].
  - intros f. rewrite !erase_lookup. pose proof (put_comp_args c g' ob f) as A. destruct (lookup f (ob_functions (put_comp c g' ob))), (lookup f (ob_functions ob)); cbn in A |- *; try discriminate; [|reflexivity].
    injection A as A. now rewrite A.
  - intros c'. unfold start_at. rewrite !erase_blocks_at, (put_comp_at c g' ob c' N). destruct (opt_eqb c c') eqn:Q.
    + apply opt_eqb_eq in Q as <-. rewrite B. replace (opt_eqb c c) with true by (symmetry; apply opt_eqb_eq; reflexivity). cbn [option_map erase_list cl_start]. rewrite ST. destruct (cl_start g) as [s|]; [|reflexivity]. cbn [opt_eqb option_map].
      unfold renamed. rewrite String.eqb_sym. destruct (String.eqb_spec s id) as [->|]; reflexivity.
    + destruct (opt_eqb c' c) eqn:Q'; [|reflexivity]. apply opt_eqb_eq in Q' as ->. rewrite opt_eqb_refl in Q. discriminate.
  - intros x bx y Q TO. rewrite BA in Q |- *. destruct (lookup x (cl_blocks g)) as [bg|] eqn:LX; [|discriminate]. cbn in Q. injection Q as <-.
    assert (ED : edge g x y) by (exists bg; auto). destruct (key_lookup y _ (edge_target _ _ _ C ED)) as (bY & ->). discriminate.
  - intros x Q. rewrite BA. unfold start_at in Q. rewrite erase_blocks_at, B in Q. cbn in Q. destruct (c_start g C) as (st & ST0 & I). rewrite Q in ST0. injection ST0 as <-.
    apply key_lookup in I as (bx & ->). discriminate.
Qed.

(** No phi function appears or disappears. *)
Lemma kept_op c i j : In j (kept c i) -> li_op j = li_op i.
Proof.
  unfold kept, before. destruct (mem (li_op i) ["PUSH [tag]"; "JUMP"; "JUMPI"]); [intros []|]. destruct (mem (li_op i) fns); [intros [<-|[]]; reflexivity|].
  destruct (String.eqb (li_op i) "functionReturn"); intros [<-|[]]; reflexivity.
Qed.
Lemma kept_shown c l : map Do (kept_instrs c l) = flat_map (before fns (rn c)) (map Do l).
Proof.
  induction l as [|i l IH]; [reflexivity|]. cbn [kept_instrs flat_map map]. rewrite map_app. fold (kept_instrs c l). rewrite IH. f_equal. unfold kept, before.
  destruct (mem (li_op i) ["PUSH [tag]"; "JUMP"; "JUMPI"]); [reflexivity|]. destruct (mem (li_op i) fns); [reflexivity|]. destruct (String.eqb (li_op i) "functionReturn"); reflexivity.
Qed.
Lemma Do_inj l l' : map Do l = map Do l' -> l = l'.
Proof. revert l'. induction l as [|i l IH]; intros [|j l'] H; try discriminate; [reflexivity|]. cbn in H. injection H as -> H. f_equal. auto. Qed.

Lemma changed_does c g g' : changed (before fns (rn c)) g g' -> forall ob, blocks_at ob c = Some g -> does_the_same (erase_object ob) (erase_object (put_comp c g' ob)).
Proof.
  induction 1 as [g|g id i b g1 g2 C SP R NP _ IH|g x b b' g2 L D KL _ IH]; intros ob B; assert (N : blocks_at ob c <> None) by congruence.
  - apply same_does. apply (put_same_code c g); auto.
  - eapply does_trans; [eapply cut_does, put_cut; eauto; intros j NJ j' I; rewrite (kept_op c j j' I); exact NJ|].
    rewrite <- (put_comp_twice c g1 g2 ob). apply IH. rewrite (put_comp_at c g1 ob c N), opt_eqb_refl. reflexivity.
  - eapply does_trans; [apply same_does, (put_same_code c g (put_block x b' g)); auto|].
    + intros y. rewrite !erase_list_lookup. cbn [put_block cl_blocks]. rewrite lookup_dict_set. destruct (String.eqb_spec x y) as [<-|]; [|reflexivity]. rewrite L. cbn [option_map]. f_equal.
      destruct D as (DJ & DF & DC & DI), KL as [KT KJ KF KFR KE]. unfold core, erase_block. cbn [set_instrs cb_instrs cb_type cb_jump_to cb_falls_to cb_cond cb_entries].
      replace (kept_instrs c (cb_instrs b')) with (kept_instrs c (cb_instrs b)) by (apply Do_inj; rewrite !kept_shown; now symmetry). now rewrite KT, KJ, KF, KE, DC.
    + rewrite <- (put_comp_twice c (put_block x b' g) g2 ob). apply IH. rewrite (put_comp_at c (put_block x b' g) ob c N), opt_eqb_refl. reflexivity.
Qed.

Lemma all_changed : forall todo ob ob', NoDup todo -> (forall c, ~ In c todo -> blocks_at ob' c = blocks_at ob c) ->
  (forall c, In c todo -> exists g g', blocks_at ob c = Some g /\ blocks_at ob' c = Some g' /\ changed (before fns (rn c)) g g') ->
  (forall f, option_map (fun k => own_args f (fn_args k)) (lookup f (ob_functions ob')) = option_map (fun k => own_args f (fn_args k)) (lookup f (ob_functions ob))) ->
  does_the_same (erase_object ob) (erase_object ob').
Proof.
  induction todo as [|c todo IH]; intros ob ob' ND OUT IN AR.
  - assert (BA : forall c, blocks_at ob' c = blocks_at ob c) by (intros c; apply OUT; auto). apply same_does. split.
    + specialize (BA None). cbn in BA. injection BA as BA. cbn. now rewrite BA.
    + intros f. rewrite !erase_lookup. specialize (AR f). specialize (BA (Some f)). cbn in BA. destruct (lookup f (ob_functions ob')), (lookup f (ob_functions ob)); cbn in AR, BA |- *; try discriminate; [|reflexivity].
      injection AR as AR. injection BA as BA. now rewrite AR, BA.
    + intros c x. rewrite !erase_block_at. unfold block_at. rewrite BA. reflexivity.
  - inversion ND as [|? ? N1 N2]; subst. destruct (IN c (or_introl eq_refl)) as (g & g' & B & B' & CH). assert (N : blocks_at ob c <> None) by congruence.
    eapply does_trans; [eapply changed_does; eauto|]. apply IH; [exact N2| | |].
    + intros c' NI. rewrite (put_comp_at c g' ob c' N). destruct (opt_eqb c c') eqn:Q; [apply opt_eqb_eq in Q as <-; exact B'|]. apply OUT. intros [->|I]; [rewrite opt_eqb_refl in Q; discriminate|contradiction].
    + intros c' I. destruct (IN c' (or_intror I)) as (h & h' & X & X' & CH'). exists h, h'. rewrite (put_comp_at c g' ob c' N), opt_eqb_neq; [auto|]. intros ->. contradiction.
    + intros f. rewrite AR. pose proof (put_comp_args c g' ob f) as A. destruct (lookup f (ob_functions (put_comp c g' ob))), (lookup f (ob_functions ob)); cbn in A |- *; try discriminate; [|reflexivity]. injection A as A. now rewrite A.
Qed.
End Erase.

(** The original object has nothing to remove. *)
Definition fresh_returns (ob : cobject) : Prop := forall f k r, lookup f (ob_functions ob) = Some k -> return_name ob (Some f) = Some r -> ~ In r (fn_args k).
Lemma filter_all {A} (h : A -> bool) l : (forall x, In x l -> h x = true) -> filter h l = l.
Proof. induction l as [|x l IH]; intros H; [reflexivity|]. cbn [filter]. rewrite (H x) by now left. f_equal. apply IH. intros; apply H; now right. Qed.
Lemma blocks_component ob c g : blocks_at ob c = Some g <-> component ob c g.
Proof.
  destruct c as [f|]; cbn; [|split; congruence]. split.
  - destruct (lookup f (ob_functions ob)) as [k|]; [|discriminate]. cbn. intros Q. injection Q as <-. exists k. auto.
  - intros (k & -> & <-). reflexivity.
Qed.
Lemma erase_original ob : object_ok ob -> fresh_returns ob -> same_code ob (erase_object (map fst (ob_functions ob)) (return_name ob) ob).
Proof.
  intros H FR. assert (EA : forall f k, lookup f (ob_functions ob) = Some k -> own_args (return_name ob) f (fn_args k) = fn_args k).
  { intros f k L. apply filter_all. intros x I. apply negb_true_iff. destruct (return_name ob (Some f)) as [r|] eqn:R; [|reflexivity]. destruct (opt_eqb (Some x) (Some r)) eqn:Q; [|reflexivity].
    apply opt_eqb_eq in Q. injection Q as ->. elim (FR f k r L R I). }
  split.
  - reflexivity.
  - intros f. rewrite erase_lookup. destruct (lookup f (ob_functions ob)) as [k|] eqn:L; [|reflexivity]. cbn. now rewrite (EA f k L).
  - intros c x. rewrite erase_block_at. destruct (block_at ob c x) as [b|] eqn:B; [|reflexivity]. cbn [option_map]. f_equal. unfold core, erase_block. cbn [set_instrs cb_instrs cb_type cb_jump_to cb_falls_to cb_cond cb_entries].
    unfold block_at in B. destruct (blocks_at ob c) as [g|] eqn:G; [|discriminate]. apply blocks_component in G.
    assert (K : forall l, (forall i, In i l -> In i (cb_instrs b)) -> kept_instrs (map fst (ob_functions ob)) (return_name ob) c l = l).
    { induction l as [|i l IH]; intros I; [reflexivity|]. cbn [kept_instrs flat_map]. fold (kept_instrs (map fst (ob_functions ob)) (return_name ob) c l). rewrite IH by (intros; apply I; now right).
      unfold kept. rewrite (plain_before ob c g x b i H G B) by (apply I; now left). reflexivity. }
    rewrite K by auto. reflexivity.
Qed.
Theorem erased_does ob ob' tags : object_ok ob -> fresh_returns ob -> insert_and_split ob = Ok (ob', tags) ->
  does_the_same ob (erase_object (map fst (ob_functions ob)) (return_name ob) ob').
Proof.
  intros H FR R. destruct (insert_and_split_changes ob H) as (ob2 & tags2 & R2 & _ & NM & AR & CH). rewrite R in R2. injection R2 as <- <-.
  eapply does_trans; [apply same_does, erase_original; auto|]. apply (all_changed _ _) with (todo := None :: map (fun fk => Some (fst fk)) (ob_functions ob)).
  - constructor; [intros I; apply in_map_iff in I as (? & Q & _); discriminate|]. replace (map (fun fk => Some (fst fk)) (ob_functions ob)) with (map Some (map fst (ob_functions ob))) by (rewrite map_map; reflexivity).
    apply FinFun.Injective_map_NoDup; [intros a b Q; congruence|apply H].
  - intros c NI. destruct c as [f|]; [|elim NI; now left]. assert (NF : ~ In f (map fst (ob_functions ob))).
    { intros I. apply NI. right. apply in_map_iff in I as (fk & <- & I). apply in_map_iff. exists fk. auto. }
    cbn. rewrite (proj2 (lookup_None f (ob_functions ob))) by exact NF. rewrite (proj2 (lookup_None f (ob_functions ob'))) by (rewrite NM; exact NF). reflexivity.
  - intros c I. assert (exists g, component ob c g) as (g & K).
    { destruct I as [<-|I]; [exists (ob_main ob); reflexivity|]. apply in_map_iff in I as (fk & <- & I). destruct fk as [f k]. exists (fn_blocks k), k. split; [apply dict_In; [apply H|exact I]|reflexivity]. }
    destruct (CH c g K) as (g' & K' & _ & CC & _). exists g, g'. split; [now apply blocks_component|]. split; [now apply blocks_component|exact CC].
  - intros f. destruct (lookup f (ob_functions ob)) as [k|] eqn:L.
    + destruct (AR f k L) as (k' & -> & A). cbn. f_equal. rewrite A. unfold own_args. destruct (return_name ob (Some f)) as [r|] eqn:RN; [|reflexivity]. cbn [filter].
      replace (opt_eqb (Some r) (Some r)) with true by (symmetry; apply opt_eqb_eq; reflexivity). reflexivity.
    + assert (NF : ~ In f (map fst (ob_functions ob))) by now apply lookup_None. rewrite (proj2 (lookup_None f (ob_functions ob'))) by (rewrite NM; exact NF). reflexivity.
Qed.
