(** Proofs of C43: splitting one list of blocks at calls. *)
From Verif Require Import Base UtilModel UtilProps UnifyProps LiveModel CfgModel CfgSpec CfgProps CombineProps JumpModel JumpSpec JumpTrace JumpProofs JumpInsert.
Open Scope string_scope. Open Scope list_scope.

Lemma NoDup_map_on {A B} (f : A -> B) l : (forall u v, In u l -> In v l -> f u = f v -> u = v) -> NoDup l -> NoDup (map f l).
Proof.
  induction l as [|a l IH]; intros H N; [constructor|]. inversion N as [|? ? N1 N2]; subst. cbn [map]. constructor.
  - intros I. apply in_map_iff in I as (z & Q & Iz). apply H in Q; [subst; contradiction|now right|now left].
  - apply IH; [|exact N2]. intros u v Iu Iv. apply H; now right.
Qed.

Section Split.
Variable f2t : tag_dict.
Variable ret : option string.
Hypothesis reserved : forall f, In f (map fst f2t) -> ~ In f ["PUSH [tag]"; "JUMP"; "JUMPI"; "functionReturn"; "PhiFunction"].
Let E := before (map fst f2t) ret.

Definition well (g : clist) (tags : tag_dict) (todo : string -> Prop) : Prop :=
  consistent g /\ linked g /\ forall x b, lookup x (cl_blocks g) = Some b -> exits (map fst f2t) ret tags b /\ (~ todo x -> settled f2t tags b)
    /\ (todo x -> untagged (map fst f2t) (cb_instrs b)).
Definition start_kept (g : clist) (tags : tag_dict) (g' : clist) (tags' : tag_dict) : Prop :=
  forall s t, cl_start g = Some s -> lookup s tags = Some t -> exists s', cl_start g' = Some s' /\ lookup s' tags' = Some t.
Lemma start_kept_trans g1 t1 g2 t2 g3 t3 : start_kept g1 t1 g2 t2 -> start_kept g2 t2 g3 t3 -> start_kept g1 t1 g3 t3.
Proof. intros A B s t S L. destruct (A s t S L) as (s' & S' & L'). eapply B; eauto. Qed.

(** Only names below [x] change. *)
Record local (x : string) (g : clist) (tags : tag_dict) (g' : clist) (tags' : tag_dict) : Prop := {
  lo_tags : forall k, ~ spread x k -> lookup k tags' = lookup k tags;
  lo_ids : forall k, ~ spread x k -> In k (map fst (cl_blocks g')) <-> In k (map fst (cl_blocks g))
}.
Lemma local_trans x y g1 t1 g2 t2 g3 t3 : spread x y -> local x g1 t1 g2 t2 -> local y g2 t2 g3 t3 -> local x g1 t1 g3 t3.
Proof.
  intros SP [A B] [C D]. split.
  - intros k N. rewrite C, A; auto. intros H. apply N. eapply spread_trans; eauto.
  - intros k N. rewrite D, B; [reflexivity|exact N|]. intros H. apply N. eapply spread_trans; eauto.
Qed.

(** The dictionary after one split. *)
Lemma split_tags cur tags bt tags2 : good_tags tags -> lookup (first_id cur) tags = None -> lookup (second_id cur) tags = None ->
  tag_from_tag_dict (second_id cur) (move_tag cur (first_id cur) tags) = (bt, tags2) ->
  good_tags tags2 /\ forall k, lookup k tags2 = if String.eqb k (second_id cur) then Some bt else if String.eqb k (first_id cur) then lookup cur tags
      else if String.eqb k cur then None else lookup k tags.
Proof.
  intros G F S T. destruct (move_good cur (first_id cur) tags G (not_eq_sym (first_ne cur)) F) as (G1 & L1).
  destruct (tag_request _ _ _ _ G1 T) as (G2 & L2 & O & M). split; [exact G2|]. intros k. destruct (String.eqb_spec k (second_id cur)) as [->|N]; [exact L2|]. rewrite O by exact N. apply L1.
Qed.

Lemma tag_call_settled ft bt tags instr b pre : lookup (li_op instr) f2t = Some ft -> (forall v, In v (li_ins instr) -> numeral v = false) -> callfree f2t pre -> cb_instrs b = pre ++ [instr] -> phis_first (cb_instrs b) -> cb_type b = "sub_block" ->
  cb_jump_to b = None -> (exists n, cb_falls_to b = Some n /\ lookup n tags = Some bt) ->
  settled f2t tags (tag_call ft bt instr b) /\ phis_first (cb_instrs (tag_call ft bt instr b)) /\ edited_block E b (tag_call ft bt instr b)
  /\ (forall i, cb_split (tag_call ft bt instr b) = Some i -> In (li_op i) (leaving ++ map fst f2t) /\ exists pre', cb_instrs (tag_call ft bt instr b) = pre' ++ [i])
  /\ (inner pre -> tidy (tag_call ft bt instr b)).
Proof.
  intros L NV CF I PH T J (n & F & LB). rewrite I in PH. apply phis_prefix in PH. unfold tag_call. rewrite I, replace_snoc.
  set (i' := {| li_op := li_op instr; li_ins := str_nat ft :: li_ins instr ++ [str_nat bt]; li_outs := li_outs instr; li_lits := li_lits instr |}).
  assert (NP : li_op i' <> "PhiFunction") by (intros Q; apply lookup_In_key in L; apply (reserved _ L); cbn in Q; rewrite Q; cbn; tauto).
  pose proof (phi_count_le pre i' NP) as LE. assert (PF : phis_first (pre ++ [i'])) by (apply phis_snoc; [intros j [<-|[]]; exact NP|exact PH]).
  destruct (phis_insert (pre ++ [i']) (push_tag bt)) as (P1 & C1); [discriminate|exact PF|].
  destruct (phis_insert _ (push_tag ft) ltac:(discriminate) P1) as (P2 & C2). rewrite C1 in P2. set (k := phi_count (pre ++ [i'])) in *.
  assert (CF2 : callfree f2t (insert_at k (push_tag ft) (insert_at k (push_tag bt) pre))) by (apply callfree_insert; [exact reserved|]; apply callfree_insert; [exact reserved|exact CF]).
  split; [|split; [exact P2|split; [|split]]]; rewrite insert_snoc by exact LE; rewrite insert_snoc by (rewrite insert_length; lia).
  - split; cbn [set_split set_instrs cb_type cb_instrs cb_split].
    + rewrite T. cbn. intuition discriminate.
    + intros p i q t Q Li. destruct (callfree_snoc f2t p i q _ i' CF2 Q) as (-> & -> & _); [congruence|]. split; [reflexivity|]. split; [reflexivity|].
      cbn [li_op i'] in Li. rewrite L in Li. injection Li as <-. exists (li_ins instr), [str_nat bt]. split; [exact NV|]. split; [|split; [reflexivity|]].
      * apply in_app_iff. left. apply insert_In. now left.
      * unfold successors. cbn [set_split set_instrs cb_jump_to cb_falls_to]. rewrite J, F. cbn [opt_list app]. split; [reflexivity|]. exists bt. split; [exact LB|]. split; [|reflexivity].
        apply in_app_iff. left. apply insert_In. right. apply insert_In. now left.
    + intros p i Q _. apply app_inj_tail in Q as (_ & <-). reflexivity.
  - split; [reflexivity|]. split; [reflexivity|]. split; [reflexivity|]. cbn [set_split set_instrs cb_instrs]. rewrite I.
    change (shown f2t ret (insert_at k (push_tag ft) (insert_at k (push_tag bt) pre) ++ [i']) = shown f2t ret (pre ++ [instr])).
    rewrite !shown_app, !shown_insert. f_equal. unfold shown. cbn [map flat_map]. f_equal. apply (E_call f2t ret reserved instr i' ft L).
    split; [reflexivity|]. split; [reflexivity|]. split; [reflexivity|]. exists ft, [str_nat bt]. split; [reflexivity|]. right. now exists bt.
  - cbn [set_split set_instrs cb_split cb_instrs]. intros i Q. injection Q as <-. split; [apply in_app_iff; right; exact (lookup_In_key _ _ _ L)|]. eexists. reflexivity.
  - intros JL. pose proof (reserved _ (lookup_In_key _ _ _ L)) as RS. eapply tidy_snoc; [reflexivity|now apply inner_insert, inner_insert|intros Q; cbn in Q; rewrite Q in RS; cbn in RS; tauto|repeat split; intros Q; cbn in Q; exfalso; rewrite Q in RS; cbn in RS; tauto].
Qed.

(** The call is not part of the exit. *)
Lemma exit_suffix (pre : list linstr) instr rest (p : list linstr) u v : pre ++ instr :: rest = p ++ [u; v] -> rest <> [] -> instr <> u -> exists p', rest = p' ++ [u; v].
Proof.
  intros Q N NU. destruct (snoc_cases rest) as [->|(r1 & z & ->)]; [congruence|]. rewrite app_comm_cons, app_assoc in Q.
  change (p ++ [u; v]) with (p ++ [u] ++ [v]) in Q. rewrite (app_assoc p) in Q. apply app_inj_tail in Q as (Q & ->).
  destruct (snoc_cases r1) as [->|(r2 & y & ->)].
  - apply app_inj_tail in Q as (_ & ->). contradiction.
  - rewrite app_comm_cons, app_assoc in Q. apply app_inj_tail in Q as (_ & ->). exists r2. now rewrite <- app_assoc.
Qed.
Lemma last_suffix (pre : list linstr) instr rest (p : list linstr) v : pre ++ instr :: rest = p ++ [v] -> rest <> [] -> exists p', rest = p' ++ [v].
Proof.
  intros Q N. destruct (snoc_cases rest) as [->|(r1 & z & ->)]; [congruence|]. rewrite app_comm_cons, app_assoc in Q. apply app_inj_tail in Q as (_ & ->). now exists r1.
Qed.
Lemma exits_second tags tags' b instr pre rest idx cur : exits (map fst f2t) ret tags b -> cb_instrs b = pre ++ instr :: rest -> length pre = idx -> rest <> [] -> lookup (li_op instr) f2t <> None ->
  (forall j t, In j (successors b) -> lookup j tags = Some t -> lookup j tags' = Some t) -> exits (map fst f2t) ret tags' (second_half cur idx b).
Proof.
  intros [A B C D PH SP JL] I LP NR LC H. assert (SK : skipn (idx + 1) (cb_instrs b) = rest).
  { rewrite I. replace (idx + 1) with (length (pre ++ [instr])) by (rewrite app_length; cbn; lia). change (instr :: rest) with ([instr] ++ rest). rewrite app_assoc.
    rewrite skipn_app, skipn_all, Nat.sub_diag. reflexivity. }
  assert (NP : forall t, instr <> push_tag t) by (intros t ->; apply LC; now apply push_plain).
  split; cbn [second_half set_cond set_jump_to set_falls_to set_comes_from new_block cb_type cb_jump_to cb_falls_to cb_cond cb_instrs]; rewrite ?SK.
  - intros T. destruct (A T) as (p & j & t & J & F & L & Q). rewrite I in Q. destruct (exit_suffix _ _ _ _ _ _ Q NR (NP t)) as (p' & ->). exists p', j, t. repeat split; auto.
    apply H; [|exact L]. unfold successors. rewrite J. now left.
  - intros T. destruct (B T) as (p & j & f & c & t & J & F & Co & L & Q). rewrite I in Q. destruct (exit_suffix _ _ _ _ _ _ Q NR (NP t)) as (p' & ->). exists p', j, f, c, t. repeat split; auto.
    apply H; [|exact L]. unfold successors. rewrite J. now left.
  - intros T. destruct (C T) as (SU & p & r & vs & RE & NI & Q). rewrite I in Q. destruct (last_suffix _ _ _ _ _ Q NR) as (p' & ->). split; [exact SU|]. exists p', r, vs. auto.
  - exact D.
  - rewrite I in PH. apply phis_none. eapply phis_suffix; [exact PH|]. intros Q. apply LC, lookup_None. intros K. apply (reserved _ K). rewrite Q. cbn. tauto.
  - discriminate.
  - destruct JL as (JI & JE). split; cbn [second_half set_cond set_jump_to set_falls_to set_comes_from new_block cb_instrs cb_type]; rewrite SK.
    + eapply inner_sub; [|exact JI]. intros i Q. rewrite I. change (instr :: rest) with ([instr] ++ rest). rewrite app_assoc, removelast_app by exact NR. apply in_app_iff. now right.
    + intros p i Q. apply (JE (pre ++ instr :: p)). rewrite I, Q, <- app_assoc. reflexivity.
Qed.

Lemma split_linked g id i b g' : consistent g -> linked g -> splittable g id b -> split_block id i g = Ok g' -> linked g'.
Proof.
  intros C LK S R. destruct (split_block_lookup g id i b C S) as (g'' & E' & K & LG & ST & TE & RE). rewrite R in E'. injection E' as <-.
  intros x q. rewrite LG. destruct S as [L NL ND F1 F2]. destruct (String.eqb_spec x (second_id id)) as [->|N1]; [|destruct (String.eqb_spec x (first_id id)) as [->|N2]; [|destruct (String.eqb_spec x id) as [->|N3]]].
  - intros Q. injection Q as <-. change (successors (second_half id i b)) with (successors b). split; [|exact ND]. intros H. apply F2. eapply target_known; eauto.
  - intros Q. injection Q as <-. cbn. split; [|repeat constructor; auto]. intros [H|[]]. now apply (halves_ne id).
  - discriminate.
  - destruct (lookup x (cl_blocks g)) as [bx|] eqn:Lx; cbn [option_map]; [|discriminate]. intros Q. injection Q as <-.
    change (successors (edit id bx)) with (successors (relink id (first_id id) bx)). rewrite successors_relink. destruct (LK x bx Lx) as (NS & NDx). split.
    + intros H. apply in_map_iff in H as (z & Hz & Iz). unfold subst in Hz. destruct (String.eqb z id); [congruence|subst; contradiction].
    + apply NoDup_map_on; [|exact NDx]. intros u v Iu Iv. unfold subst.
      assert (forall z, In z (successors bx) -> z <> first_id id) as NF by (intros z Iz ->; apply F1; eapply target_known; eauto).
      destruct (String.eqb_spec u id) as [->|], (String.eqb_spec v id) as [->|]; auto; intros Q; exfalso; [apply (NF v)|apply (NF u)]; auto.
Qed.

(** One split and the tagging of the call. *)
Lemma split_one cur idx g tags b pre instr rest ft (todo : string -> Prop) : good_tags tags -> well g tags (fun x => x = cur \/ todo x) -> lookup cur (cl_blocks g) = Some b ->
  cb_instrs b = pre ++ instr :: rest -> length pre = idx -> rest <> [] -> callfree f2t pre -> lookup (li_op instr) f2t = Some ft ->
  free_below cur (map fst (cl_blocks g)) tags -> (forall y, todo y -> In y (map fst (cl_blocks g)) /\ ~ spread cur y) ->
  exists g1 bt tags2 bf, split_block cur idx g = Ok g1 /\ tag_from_tag_dict (second_id cur) (move_tag cur (first_id cur) tags) = (bt, tags2)
    /\ get_block (first_id cur) g1 = Ok bf
    /\ let g2 := put_block (first_id cur) (tag_call ft bt instr bf) g1 in
       good_tags tags2 /\ well g2 tags2 (fun x => x = second_id cur \/ todo x) /\ (exists b2, lookup (second_id cur) (cl_blocks g2) = Some b2 /\ cb_instrs b2 = rest)
       /\ free_below (second_id cur) (map fst (cl_blocks g2)) tags2 /\ (forall y, todo y -> In y (map fst (cl_blocks g2)) /\ ~ spread (second_id cur) y)
       /\ changed E g g2 /\ local cur g tags g2 tags2 /\ start_kept g tags g2 tags2.
Proof.
  intros G (C & LK & BL) L I LP NR CF LC FB TD. pose proof (first_ne cur) as N1. pose proof (second_ne cur) as N2. pose proof (halves_ne cur) as N3.
  assert (FF := FB "f" fs_f). assert (FS := FB "s" fs_s). change (cur ++ "f")%string with (first_id cur) in FF. change (cur ++ "s")%string with (second_id cur) in FS.
  destruct FF as (FF1 & FF2); [discriminate|]. destruct FS as (FS1 & FS2); [discriminate|].
  assert (SP : splittable g cur b) by (destruct (LK cur b L); split; auto).
  destruct (split_block_lookup g cur idx b C SP) as (g1 & R & K & LG & ST & TE & RE).
  destruct (tag_from_tag_dict (second_id cur) (move_tag cur (first_id cur) tags)) as [bt tags2] eqn:TG.
  destruct (split_tags cur tags bt tags2 G FF2 FS2 TG) as (G2 & L2).
  assert (LF : lookup (first_id cur) (cl_blocks g1) = Some (first_half cur idx b)) by (rewrite LG; destruct (String.eqb_spec (first_id cur) (second_id cur)); [congruence|]; rewrite String.eqb_refl; reflexivity).
  assert (LS : lookup (second_id cur) (cl_blocks g1) = Some (second_half cur idx b)) by (rewrite LG, String.eqb_refl; reflexivity).
  assert (C1 := split_consistent g cur idx b g1 C SP R). assert (LK1 := split_linked g cur idx b g1 C LK SP R).
  assert (RL : forall j t, lookup j tags = Some t -> lookup (subst cur (first_id cur) j) tags2 = Some t).
  { intros j t Lj. rewrite L2. unfold subst. destruct (String.eqb_spec j cur) as [->|NJ].
    - rewrite String.eqb_refl. destruct (String.eqb_spec (first_id cur) (second_id cur)); [congruence|exact Lj].
    - destruct (String.eqb_spec j (second_id cur)); [congruence|]. destruct (String.eqb_spec j (first_id cur)); [congruence|]. destruct (String.eqb_spec j cur); [congruence|exact Lj]. }
  assert (FI : firstn (idx + 1) (cb_instrs b) = pre ++ [instr]).
  { rewrite I. replace (idx + 1) with (length (pre ++ [instr])) by (rewrite app_length; cbn; lia). change (instr :: rest) with ([instr] ++ rest). rewrite app_assoc, firstn_app, firstn_all, Nat.sub_diag. cbn. now rewrite app_nil_r. }
  assert (SI : skipn (idx + 1) (cb_instrs b) = rest).
  { rewrite I. replace (idx + 1) with (length (pre ++ [instr])) by (rewrite app_length; cbn; lia). change (instr :: rest) with ([instr] ++ rest). rewrite app_assoc.
    rewrite skipn_app, skipn_all, Nat.sub_diag. reflexivity. }
  assert (UB : untagged (map fst f2t) (cb_instrs b)) by (apply (BL cur b L); now left).
  assert (NVI : forall v, In v (li_ins instr) -> numeral v = false) by (apply UB; [rewrite I; apply in_app_iff; right; now left|exact (lookup_In_key _ _ _ LC)]).
  destruct (tag_call_settled ft bt tags2 instr (first_half cur idx b) pre LC NVI CF) as (SE & PT & ED & SPX & JPX); auto.
  { destruct (BL cur b L) as (X & _). cbn [first_half set_falls_to set_comes_from set_entries new_block cb_instrs]. apply (phis_prefix _ (skipn (idx + 1) (cb_instrs b))). rewrite firstn_skipn. apply X. }
  { exists (second_id cur). split; [reflexivity|]. rewrite L2, String.eqb_refl. reflexivity. }
  exists g1, bt, tags2, (first_half cur idx b). split; [exact R|]. split; [reflexivity|]. split; [unfold get_block; rewrite LF; reflexivity|].
  set (tc := tag_call ft bt instr (first_half cur idx b)) in *. set (g2 := put_block (first_id cur) tc g1). cbv zeta.
  assert (KG2 : map fst (cl_blocks g2) = map fst (cl_blocks g1)) by (apply dict_set_same_keys; exact (lookup_In_key _ _ _ LF)).
  assert (LG2 : forall x, lookup x (cl_blocks g2) = if String.eqb (first_id cur) x then Some tc else lookup x (cl_blocks g1)) by (intros; apply lookup_dict_set).
  assert (IDS : forall x, In x (map fst (cl_blocks g2)) <-> x = first_id cur \/ x = second_id cur \/ In x (map fst (cl_blocks g)) /\ x <> cur).
  { intros x. rewrite KG2. split.
    - intros H. apply key_lookup in H as (v & H). rewrite LG in H. destruct (String.eqb_spec x (second_id cur)); [auto|]. destruct (String.eqb_spec x (first_id cur)); [auto|].
      destruct (String.eqb_spec x cur); [discriminate|]. right. right. split; [|assumption]. destruct (lookup x (cl_blocks g)) eqn:Q; [|discriminate]. exact (lookup_In_key _ _ _ Q).
    - intros [->|[->|(H & NC)]]; [exact (lookup_In_key _ _ _ LF)|exact (lookup_In_key _ _ _ LS)|]. apply key_lookup in H as (v & H). apply (lookup_In_key _ (edit cur v)).
      rewrite LG. destruct (String.eqb_spec x (second_id cur)) as [->|]; [apply lookup_In_key in H; contradiction|]. destruct (String.eqb_spec x (first_id cur)) as [->|]; [apply lookup_In_key in H; contradiction|].
      destruct (String.eqb_spec x cur); [contradiction|]. rewrite H. reflexivity. }
  split; [exact G2|]. split; [|split; [|split; [|split; [|split; [|split]]]]].
  - split; [|split].
    + apply (consistent_put g1 (first_id cur) (first_half cur idx b)); auto.
    + apply (linked_put g1 (first_id cur) (first_half cur idx b)); auto.
    + intros x q. rewrite LG2. destruct (String.eqb_spec (first_id cur) x) as [<-|NF].
      * intros Q. injection Q as <-. split; [|split; [intros; exact SE|intros [Q|Q]; [congruence|destruct (TD _ Q) as (TF & _); contradiction]]]. split; [discriminate|discriminate|discriminate|reflexivity|exact PT|exact SPX|]. apply JPX. destruct (BL cur b L) as (X & _). eapply inner_sub; [|apply (ex_tidy _ _ _ _ X)]. intros z Iz. rewrite I, removelast_app by discriminate. apply in_app_iff. now left.
      * rewrite LG. destruct (String.eqb_spec x (second_id cur)) as [->|NS].
        { intros Q. injection Q as <-. split; [|split; [tauto|intros _ z Iz; apply UB; change (In z (skipn (idx + 1) (cb_instrs b))) in Iz; rewrite <- (firstn_skipn (idx + 1) (cb_instrs b)); apply in_app_iff; now right]]. destruct (BL cur b L) as (X & _). apply (exits_second tags tags2 b instr pre rest idx cur X I LP NR); [congruence|].
          intros j t Ij Lj. specialize (RL j t Lj). rewrite subst_ne in RL; [exact RL|]. intros ->. apply (LK cur b L). exact Ij. }
        destruct (String.eqb_spec x (first_id cur)); [congruence|]. destruct (String.eqb_spec x cur) as [->|NC]; [discriminate|].
        destruct (lookup x (cl_blocks g)) as [bx|] eqn:Lx; cbn [option_map]; [|discriminate]. intros Q. injection Q as <-. destruct (BL x bx Lx) as (X & SX & UX). split; [|split].
        { apply (exits_edit (map fst f2t) ret tags); auto. }
        { intros NT. apply (settled_edit f2t tags); auto. apply SX. intros [|]; [contradiction|]. apply NT. now right. }
        { intros [|NT]; [contradiction|]. apply UX. now right. }
  - exists (second_half cur idx b). split; [|exact SI]. rewrite LG2. destruct (String.eqb_spec (first_id cur) (second_id cur)); [congruence|exact LS].
  - intros w F NW. replace (second_id cur ++ w)%string with (cur ++ String "s" w)%string by (unfold second_id; rewrite str_app_assoc; reflexivity).
    assert (Fs : fs_word (String "s" w)) by (change (String "s" w) with ("s" ++ w)%string; apply fs_app; split; [apply fs_s|exact F]).
    destruct (FB (String "s" w) Fs) as (A & B); [discriminate|].
    assert (D1 : (cur ++ String "s" w)%string <> first_id cur) by (intros Q; apply str_app_inj in Q; discriminate).
    assert (D2 : (cur ++ String "s" w)%string <> second_id cur) by (intros Q; apply str_app_inj in Q; congruence).
    assert (D3 : (cur ++ String "s" w)%string <> cur) by (apply str_app_ne; discriminate).
    split; [rewrite IDS; tauto|]. rewrite L2. destruct (String.eqb_spec (cur ++ String "s" w)%string (second_id cur)); [congruence|]. destruct (String.eqb_spec (cur ++ String "s" w)%string (first_id cur)); [congruence|].
    destruct (String.eqb_spec (cur ++ String "s" w)%string cur); [reflexivity|exact B].
  - intros y T. destruct (TD y T) as (A & B). split.
    + apply IDS. right. right. split; [exact A|]. intros ->. apply B. apply spread_refl.
    + intros H. apply B. eapply spread_trans; [apply spread_second|exact H].
  - eapply ch_split; [exact C|exact SP|exact R| |].
    + rewrite SI. destruct (BL cur b L) as (X & _). pose proof (ex_phis _ _ _ _ X) as PHB. rewrite I in PHB. eapply phis_suffix; [exact PHB|].
      intros Q. apply lookup_In_key in LC. apply (reserved _ LC). rewrite Q. cbn. tauto.
    + eapply ch_edit; [exact LF|exact ED|split; reflexivity|apply ch_refl].
  - split.
    + intros k N. rewrite L2. destruct (String.eqb_spec k (second_id cur)) as [->|]; [elim N; apply spread_second|]. destruct (String.eqb_spec k (first_id cur)) as [->|]; [elim N; apply spread_first|].
      destruct (String.eqb_spec k cur) as [->|]; [elim N; apply spread_refl|reflexivity].
    + intros k N. rewrite IDS. split; [|intros H; right; right; split; [exact H|intros ->; apply N, spread_refl]].
      intros [->|[->|(H & _)]]; [elim N; apply spread_first|elim N; apply spread_second|exact H].
  - intros s t S Ls. exists (subst cur (first_id cur) s). split; [|now apply RL]. change (cl_start g2) with (cl_start g1). rewrite ST, S. unfold subst. cbn [opt_eqb]. rewrite String.eqb_sym.
    destruct (String.eqb_spec s cur); reflexivity.
Qed.

Lemma split_calls : forall rest cur idx g tags b pre (todo : string -> Prop), good_tags tags -> well g tags (fun x => x = cur \/ todo x) -> lookup cur (cl_blocks g) = Some b ->
  cb_instrs b = pre ++ rest -> length pre = idx -> callfree f2t pre ->
  free_below cur (map fst (cl_blocks g)) tags -> (forall y, todo y -> In y (map fst (cl_blocks g)) /\ ~ spread cur y) ->
  exists cur' g' tags' b' pre' rest', split_at_calls f2t rest cur idx g tags = Ok (cur', g', tags')
    /\ good_tags tags' /\ well g' tags' (fun x => x = cur' \/ todo x) /\ lookup cur' (cl_blocks g') = Some b'
    /\ cb_instrs b' = pre' ++ rest' /\ callfree f2t pre' /\ length rest' <= 1 /\ spread cur cur'
    /\ changed E g g' /\ local cur g tags g' tags' /\ start_kept g tags g' tags'.
Proof.
  induction rest as [|instr rest IH]; intros cur idx g tags b pre todo G W L I LP CF FB TD.
  - exists cur, g, tags, b, pre, []. cbn [split_at_calls]. split; [reflexivity|]. split; [exact G|]. split; [exact W|]. split; [exact L|]. split; [exact I|]. split; [exact CF|]. split; [cbn; lia|].
    split; [apply spread_refl|]. split; [apply ch_refl|]. split; [split; reflexivity|]. intros s t S Ls. eauto.
  - destruct rest as [|i2 rest].
    { exists cur, g, tags, b, pre, [instr]. cbn [split_at_calls]. split; [reflexivity|]. split; [exact G|]. split; [exact W|]. split; [exact L|]. split; [exact I|]. split; [exact CF|]. split; [cbn; lia|].
      split; [apply spread_refl|]. split; [apply ch_refl|]. split; [split; reflexivity|]. intros s t S Ls. eauto. }
    set (rr := i2 :: rest) in *. assert (NR : rr <> []) by discriminate.
    change (split_at_calls f2t (instr :: rr) cur idx g tags) with (match lookup (li_op instr) f2t with
      | Some ft =>
          do g1 <- split_block cur idx g;
          let tags1 := move_tag cur (first_id cur) tags in
          let (bt, tags2) := tag_from_tag_dict (second_id cur) tags1 in
          do b <- get_block (first_id cur) g1;
          split_at_calls f2t rr (second_id cur) 0 (put_block (first_id cur) (tag_call ft bt instr b) g1) tags2
      | None => split_at_calls f2t rr cur (S idx) g tags
      end). clearbody rr.
    destruct (lookup (li_op instr) f2t) as [ft|] eqn:LC.
    + destruct (split_one cur idx g tags b pre instr rr ft todo G W L I LP NR CF LC FB TD) as (g1 & bt & tags2 & bf & R & TG & GB & H). cbv zeta in H.
      destruct H as (G2 & W2 & (b2 & Lb2 & Ib2) & FB2 & TD2 & AL & LO & SK). rewrite R. cbn [bind]. cbv zeta. rewrite TG, GB. cbn [bind].
      destruct (IH (second_id cur) 0 _ tags2 b2 [] todo G2 W2 Lb2 Ib2 eq_refl) as (cur' & g' & tags' & b' & pre' & rest' & RN & G' & W' & L' & I' & CF' & LE & SP & AL' & LO' & SK'); auto.
      { intros i []. }
      exists cur', g', tags', b', pre', rest'. split; [exact RN|]. split; [exact G'|]. split; [exact W'|]. split; [exact L'|]. split; [exact I'|]. split; [exact CF'|]. split; [exact LE|].
      split; [eapply spread_trans; [apply spread_second|exact SP]|]. split; [eapply changed_trans; eauto|]. split; [eapply local_trans; [apply spread_second|exact LO|exact LO']|].
      eapply start_kept_trans; eauto.
    + apply (IH cur (S idx) g tags b (pre ++ [instr]) todo); auto.
      * rewrite I, <- app_assoc. reflexivity.
      * rewrite app_length. cbn. lia.
      * intros i H. apply in_app_iff in H as [H|[<-|[]]]; [auto|exact LC].
Qed.
End Split.
