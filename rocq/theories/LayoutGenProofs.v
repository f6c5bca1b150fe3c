(** The layouts of all the blocks of a component fit together: invariant of the
    traversal. *)
From Verif Require Import Base UtilModel UtilProps LevelProps LiveModel CfgModel CfgProps LayoutModel LayoutProps UnifyModel UnifyProps LayoutGenModel LayoutGenSpec LayoutGenUnify.
Open Scope string_scope. Open Scope list_scope.

(* --- lists --- *)
Lemma in_union a b x : In x (union a b) <-> In x a \/ In x b.
Proof.
  unfold union. rewrite in_app_iff, filter_In, negb_true_iff, mem_false. destruct (in_dec string_dec x a); tauto.
Qed.
Lemma union_NoDup a b : NoDup a -> NoDup b -> NoDup (union a b).
Proof.
  intros Na Nb. unfold union. apply NoDup_app_intro; [exact Na|now apply NoDup_filter|].
  intros x Ia If. apply filter_In in If as (_ & If). apply negb_true_iff, mem_false in If. auto.
Qed.
Lemma Forall2_imp {A B} (P Q : A -> B -> Prop) l m : (forall a b, P a b -> Q a b) -> Forall2 P l m -> Forall2 Q l m.
Proof. intros H F. induction F; constructor; auto. Qed.
Lemma Forall2_comp {A B C} (P : A -> B -> Prop) (Q : B -> C -> Prop) l m n : Forall2 P l m -> Forall2 Q m n -> Forall2 (fun a c => exists b, P a b /\ Q b c) l n.
Proof.
  intros F. revert n. induction F; intros n G; inversion G; subst; constructor; eauto.
Qed.
Lemma Forall2_self {A} (P : A -> A -> Prop) l : (forall x, In x l -> P x x) -> Forall2 P l l.
Proof. induction l; intros H; constructor; [apply H; now left|]. apply IHl. intros; apply H; now right. Qed.
Lemma Forall2_rev {A B} (P : A -> B -> Prop) l m : Forall2 P l m -> Forall2 P (rev l) (rev m).
Proof. induction 1; cbn [rev]; [constructor|]. apply Forall2_app; [assumption|]. constructor; [assumption|constructor]. Qed.

(* --- repeated values --- *)
Definition named (u u' : string) : Prop := u' = u \/ exists n, u' = ("a" ++ str_nat n)%string.
Lemma subst_dups_named : forall rs added, Forall2 named rs (subst_dups added rs).
Proof.
  induction rs as [|v rs IH]; intros added; cbn [subst_dups]; [constructor|]. destruct (mem v added); constructor; auto; [right; eauto|now left].
Qed.
Lemma substitute_named stack : Forall2 named stack (substitute_duplicates stack).
Proof.
  unfold substitute_duplicates. rewrite <- (rev_involutive stack) at 1. apply Forall2_rev. apply subst_dups_named.
Qed.
Lemma subst_dups_incl : forall rs added x, In x rs -> ~ In x added -> In x (subst_dups added rs).
Proof.
  induction rs as [|v rs IH]; intros added x I N; [destruct I|]. cbn [subst_dups]. destruct (mem v added) eqn:M.
  - apply mem_In in M. destruct I as [->|I]; [contradiction|]. right. now apply IH.
  - destruct (string_dec v x) as [->|D]; [now left|]. destruct I as [->|I]; [contradiction|]. right. apply IH; [exact I|]. intros [Q|Q]; contradiction.
Qed.
Lemma substitute_incl stack : incl stack (substitute_duplicates stack).
Proof.
  intros x Ix. unfold substitute_duplicates. apply -> in_rev. apply subst_dups_incl; [now apply -> in_rev|intros []].
Qed.

(* --- the dictionary of blocks to unify --- *)
Definition info_of (nb : string * cblock) : unification :=
  (fst nb, match cb_entries (snd nb) with [] => cb_comes_from (snd nb) | es => es end, phi_instructions (snd nb)).
Lemma set_all_lookup {A} (v : A) ps : forall d p, lookup p (fold_left (fun d p => dict_set p v d) ps d) = if in_dec string_dec p ps then Some v else lookup p d.
Proof.
  induction ps as [|q ps IH]; intros d p; [reflexivity|]. cbn [fold_left]. rewrite IH, lookup_dict_set.
  destruct (in_dec string_dec p ps) as [I|N]; destruct (in_dec string_dec p (q :: ps)) as [J|NJ]; try reflexivity.
  - exfalso. apply NJ. now right.
  - destruct J as [->|J]; [|contradiction]. now rewrite String.eqb_refl.
  - destruct (String.eqb_spec q p) as [->|]; [|reflexivity]. exfalso. apply NJ. now left.
Qed.
Lemma udict_spec : forall bs d p, let d' := fold_left (fun d nb => let '(name, b) := nb in
      if (1 <? length (cb_comes_from b))%nat then
        let info := (name, match cb_entries b with [] => cb_comes_from b | es => es end, phi_instructions b) in
        fold_left (fun d p => dict_set p info d) (cb_comes_from b) d
      else d) bs d in
  (forall u, lookup p d' = Some u -> lookup p d = Some u \/ exists nb, In nb bs /\ join (snd nb) /\ In p (cb_comes_from (snd nb)) /\ u = info_of nb)
  /\ (lookup p d' = None -> lookup p d = None /\ forall nb, In nb bs -> join (snd nb) -> ~ In p (cb_comes_from (snd nb))).
Proof.
  induction bs as [|[n b] bs IH]; intros d p; cbv zeta; cbn [fold_left].
  - split; [auto|]. intros H. split; [exact H|]. intros nb [].
  - specialize (IH (if (1 <? length (cb_comes_from b))%nat then fold_left (fun d p => dict_set p (info_of (n, b)) d) (cb_comes_from b) d else d) p).
    cbv zeta in IH. destruct IH as (IH1 & IH2). split.
    + intros u Hu. apply IH1 in Hu as [Hu|(nb & I & R)]; [|right; exists nb; split; [now right|exact R]].
      destruct (Nat.ltb_spec 1 (length (cb_comes_from b))) as [J|J]; [|now left].
      rewrite set_all_lookup in Hu. destruct (in_dec string_dec p (cb_comes_from b)) as [I|]; [|now left].
      right. exists (n, b). split; [now left|]. split; [exact J|]. split; [exact I|]. congruence.
    + intros Hu. apply IH2 in Hu as (Hu & Hn). destruct (Nat.ltb_spec 1 (length (cb_comes_from b))) as [J|J].
      * rewrite set_all_lookup in Hu. destruct (in_dec string_dec p (cb_comes_from b)) as [I|NI]; [discriminate|]. split; [exact Hu|].
        intros nb [<-|I]; [intros _; exact NI|now apply Hn].
      * split; [exact Hu|]. intros nb [<-|I] Jn; [unfold join in Jn; cbn [snd] in Jn; lia|now apply Hn].
Qed.
Lemma dict_update_lookup {A} (d' : list (string * A)) : forall d p,
  (lookup p d' = None -> lookup p (dict_update d d') = lookup p d)
  /\ (NoDup (map fst d') -> forall v, lookup p d' = Some v -> lookup p (dict_update d d') = Some v).
Proof.
  unfold dict_update. induction d' as [|[k w] d' IH]; intros d p; cbn [fold_left lookup fst snd]; [split; [reflexivity|discriminate]|].
  destruct (IH (dict_set k w d) p) as (IH1 & IH2). destruct (String.eqb_spec k p) as [->|N].
  - split; [discriminate|]. intros Nd v H. injection H as <-. inversion Nd as [|? ? N1 N2]; subst. rewrite IH1.
    + rewrite lookup_dict_set, String.eqb_refl. reflexivity.
    + destruct (lookup p d') eqn:L; [|reflexivity]. exfalso. apply N1. eapply lookup_In_key; eauto.
  - split.
    + intros H. rewrite (IH1 H), lookup_dict_set. destruct (String.eqb_spec k p); [contradiction|reflexivity].
    + intros Nd v H. inversion Nd; subst. now apply IH2.
Qed.
Lemma unify_with_NoDup pf names preds lt info original oin junk combined stacks :
  unify_with pf names preds lt info original oin junk = Ok (combined, stacks) -> NoDup (map fst stacks).
Proof.
  unfold unify_with. destruct (output_stack_layout _ _ _ _ _) as [[c j]|]; [|discriminate]. cbn [bind]. intros H. injection H as _ <-.
  assert (G : forall ps d, NoDup (map fst d) -> NoDup (map fst (fold_left (fun d p => dict_set p (if String.eqb p original then unify_stack_joint p c pf else firstn j (unify_stack_joint p c pf)) d) ps d))).
  { induction ps as [|q ps IH]; intros d Nd; [exact Nd|]. cbn [fold_left]. apply IH. now apply dict_set_NoDup. }
  apply G. constructor.
Qed.

(* --- the heap --- *)
Lemma pop_min_In : forall l a m r, pop_min a l = (m, r) -> forall x, In x (a :: l) <-> In x (m :: r).
Proof.
  induction l as [|b l IH]; intros a m r H x; cbn [pop_min] in H.
  - injection H as <- <-. reflexivity.
  - destruct (entry_le a b).
    + destruct (pop_min a l) as [m' r'] eqn:E. injection H as <- <-. specialize (IH a m' r' E x). cbn [In] in *. tauto.
    + destruct (pop_min b l) as [m' r'] eqn:E. injection H as <- <-. specialize (IH b m' r' E x). cbn [In] in *. tauto.
Qed.

(* --- liveness with extra values --- *)
Definition same_live (l0 l : live_info) : Prop := lv_in l = lv_in l0 /\ lv_out l = lv_out l0 /\ NoDup (lv_in_extra l) /\ NoDup (lv_out_extra l).
Definition extends (lv0 lv : lives) : Prop := forall x l0, lookup x lv0 = Some l0 -> exists l, lookup x lv = Some l /\ same_live l0 l.
Lemma propagate_extends env first vals lv0 : NoDup vals -> forall fuel stack tr lv lv', extends lv0 lv ->
  propagate_loop fuel env first vals stack tr lv = Ok lv' -> extends lv0 lv'.
Proof.
  intros Nv. induction fuel as [|fuel IH]; intros stack tr lv lv' E; cbn [propagate_loop]; destruct (rev stack) as [|b rest]; try discriminate;
    try (intros H; injection H as <-; exact E).
  destruct (mem b tr || String.eqb b first); [apply IH; exact E|].
  destruct (lookup b lv) as [l|] eqn:L; cbn [of_option bind]; [|discriminate]. apply IH.
  intros x l0 L0. rewrite lookup_dict_set. destruct (String.eqb_spec b x) as [->|]; [|now apply E].
  destruct (E x l0 L0) as (l' & L' & (S1 & S2 & S3 & S4)). rewrite L in L'. injection L' as <-.
  eexists. split; [reflexivity|]. unfold same_live, extend_live. cbn. repeat split; auto using union_NoDup.
Qed.
Lemma preserve_extends env path out values lv0 lv lv' : extends lv0 lv -> preserve_stack_dominant_path env path out values lv = Ok lv' -> extends lv0 lv'.
Proof.
  intros E. unfold preserve_stack_dominant_path. destruct (hd_error (rev path)) as [last|]; cbn [of_option bind]; [|discriminate].
  destruct (hd_error path) as [first|]; cbn [of_option bind]; [|discriminate]. destruct (lookup last lv) as [l|]; cbn [of_option bind]; [|discriminate].
  destruct (union _ _) as [|v vs] eqn:U; [intros H; injection H as <-; exact E|]. apply propagate_extends; [|exact E].
  rewrite <- U. apply union_NoDup; apply NoDup_nodup.
Qed.
Lemma combined_liveness_spec lv next elements live : combined_liveness lv next elements = Ok live ->
  (exists l, lookup next lv = Some l /\ lookup next live = Some (in_vars l))
  /\ forall e, In e elements -> exists l, lookup e lv = Some l /\ (e <> next -> lookup e live = Some (out_vars l)) /\ exists v, lookup e live = Some v.
Proof.
  unfold combined_liveness.
  assert (G : forall es d0 d, for_each (fun d e => do l <- of_option (lookup e lv); Ok (dict_set e (out_vars l) d)) es d0 = Ok d ->
     forall e, (In e es -> exists l, lookup e lv = Some l /\ lookup e d = Some (out_vars l)) /\ (~ In e es -> lookup e d = lookup e d0)).
  { induction es as [|x es IH]; intros d0 d H e; cbn [for_each] in H; [injection H as <-; split; [intros []|reflexivity]|].
    destruct (lookup x lv) as [l|] eqn:L; cbn [of_option bind] in H; [|discriminate]. destruct (IH _ _ H e) as (I1 & I2). split.
    - intros I. destruct (in_dec string_dec e es) as [J|J]; [auto|]. destruct I as [->|I]; [|contradiction].
      exists l. split; [exact L|]. rewrite (I2 J), lookup_dict_set, String.eqb_refl. reflexivity.
    - intros N. rewrite I2, lookup_dict_set by (intros J; apply N; now right). destruct (String.eqb_spec x e) as [->|]; [|reflexivity].
      exfalso. apply N. now left. }
  destruct (for_each _ elements []) as [d|] eqn:F; cbn [bind]; [|discriminate].
  destruct (lookup next lv) as [l|] eqn:L; cbn [of_option bind]; [|discriminate]. intros H. injection H as <-. split.
  - exists l. split; [reflexivity|]. rewrite lookup_dict_set, String.eqb_refl. reflexivity.
  - intros e Ie. destruct (G _ _ _ F e) as (I1 & _). destruct (I1 Ie) as (le & Le & Ld). exists le. split; [exact Le|]. rewrite lookup_dict_set.
    destruct (String.eqb_spec next e) as [->|N]; [split; [congruence|eauto]|]. split; eauto.
Qed.

Section Traversal.
Variables (env : layout_env) (lv0 : lives).
Hypothesis OK : component_ok env lv0.
Let udict := unification_block_dict (le_blocks env).
Let J := le_main env && le_junk env.

Lemma block_In x b : block_at env x b <-> In (x, b) (le_blocks env).
Proof. split; [apply lookup_In|]. intros H. apply lookup_NoDup; [apply (ok_names _ _ OK)|exact H]. Qed.

(** The common successor of a block and its brothers. *)
Definition brothers (id next : string) (nb : cblock) (elements : list string) : Prop :=
  block_at env next nb /\ join nb /\ In id (cb_comes_from nb) /\ elements = (match cb_entries nb with [] => cb_comes_from nb | es => es end).
Lemma udict_Some id next elements phis : lookup id udict = Some (next, elements, phis) ->
  exists nb, brothers id next nb elements /\ phis = phi_instructions nb.
Proof.
  intros H. destruct (udict_spec (le_blocks env) [] id) as (U & _). destruct (U _ H) as [Q|([n b] & I & Jn & Ip & E)]; [discriminate|].
  unfold info_of in E. cbn [fst snd] in *. injection E as -> -> ->. exists b. split; [|reflexivity]. repeat split; auto. now apply block_In.
Qed.
Lemma udict_None id : lookup id udict = None -> forall s sb, block_at env s sb -> join sb -> ~ In id (cb_comes_from sb).
Proof.
  intros H s sb B Js. destruct (udict_spec (le_blocks env) [] id) as (_ & U). destruct (U H) as (_ & N). apply (N (s, sb)); [now apply block_In|exact Js].
Qed.
Lemma elements_In id next nb elements : brothers id next nb elements -> forall p, In p elements <-> In p (cb_comes_from nb).
Proof.
  intros (B & _ & _ & ->) p. destruct (ok_entries _ _ OK _ _ B) as [->|(_ & E)]; [reflexivity|]. destruct (cb_entries nb); [reflexivity|apply E].
Qed.
Lemma elements_NoDup id next nb elements : brothers id next nb elements -> NoDup elements.
Proof.
  intros (B & _ & _ & ->). destruct (ok_entries _ _ OK _ _ B) as [->|(N & _)]; [apply (ok_nodup _ _ OK _ _ B)|].
  destruct (cb_entries nb); [apply (ok_nodup _ _ OK _ _ B)|exact N].
Qed.
Lemma elements_length id next nb elements : brothers id next nb elements -> 1 < length elements.
Proof.
  intros Hb. pose proof Hb as (B & Jn & _ & _). unfold join in Jn. eapply Nat.lt_le_trans; [exact Jn|].
  apply NoDup_incl_length; [apply (ok_nodup _ _ OK _ _ B)|]. intros p Ip. now apply (elements_In id next nb elements Hb).
Qed.
(** All the brothers of a block have the same entry. *)
Lemma one_join p s1 b1 s2 b2 : block_at env s1 b1 -> block_at env s2 b2 -> join b1 -> join b2 -> In p (cb_comes_from b1) -> In p (cb_comes_from b2) -> s1 = s2.
Proof.
  intros B1 B2 J1 J2 I1 I2. destruct (ok_preds _ _ OK _ _ _ B1 I1) as (pb & Bp & S1). destruct (ok_preds _ _ OK _ _ _ B2 I2) as (pb' & Bp' & S2).
  unfold block_at in Bp, Bp'. rewrite Bp in Bp'. injection Bp' as <-. exact (ok_one_join _ _ OK p pb s1 b1 s2 b2 Bp S1 S2 B1 B2 J1 J2).
Qed.

Lemma junk_flag id : can_have_junk env id = true -> J = true.
Proof. unfold can_have_junk, J. destruct (le_main env), (le_junk env), (mem id (le_loops env)); auto. Qed.

(** Liveness: the live variables never change. *)
Definition covers (id : string) (o : list string) : Prop :=
  forall l0, lookup id lv0 = Some l0 -> forall v, In v (lv_out l0) ->
    (forall s sb, block_at env s sb -> join sb -> In id (cb_comes_from sb) -> ~ phi_result sb v) -> In v o.
Definition needs (id : string) (i : list string) : Prop := forall l0, lookup id lv0 = Some l0 -> incl (lv_in l0) i.

(** What is known of a block with several predecessors. *)
Definition joined (st : layouts) (s : string) (sb : cblock) : Prop :=
  exists c, lookup s (ly_in st) = Some c /\ needs s c /\
    forall q, In q (cb_comes_from sb) -> exists o, lookup q (ly_out st) = Some o /\ fits J sb q o c.

Record inv (tr : list string) (pending : list entry) (st : layouts) : Prop := {
  i_live : extends lv0 (ly_live st);
  i_done : forall x, In x tr -> reached env x /\ exists b input f o rest, block_at env x b /\
      lookup x (ly_spec st) = Some (substitute_duplicates input, f) /\ lookup x (ly_out st) = Some o /\ f = o ++ rest /\ (J = false -> rest = []) /\
      needs x input /\
      match cb_comes_from b with
      | [] => exists dropped, le_inputs env = input ++ dropped /\ (J = false -> dropped = [])
      | _ => forall p, In p (cb_comes_from b) -> exists op, lookup p (ly_out st) = Some op /\ fits J b p op input
      end;
  i_start : In (le_start env) tr -> forall b, block_at env (le_start env) b -> cb_comes_from b = [];
  i_out : forall p o, lookup p (ly_out st) = Some o -> covers p o /\
      (In p tr \/ exists s sb, block_at env s sb /\ join sb /\ In p (cb_comes_from sb) /\ joined st s sb);
  i_join : forall s sb, block_at env s sb -> join sb ->
      (~ In s tr /\ forall q, In q (cb_comes_from sb) -> lookup q (ly_out st) = None) \/ joined st s sb;
  i_pending : forall d r x, In (d, r, x) pending -> x = le_start env \/ exists p pb, In p tr /\ block_at env p pb /\ In x (successors pb);
  i_closed : forall p pb s, In p tr -> block_at env p pb -> In s (successors pb) -> In s tr \/ exists d r, In (d, r, s) pending;
  i_first : In (le_start env) tr \/ exists d r, In (d, r, le_start env) pending;
  i_begin : ~ In (le_start env) tr -> tr = [] /\ ly_out st = []
}.

Lemma fits_prefix s from left start dropped : fits J s from left (start ++ dropped) -> J = true -> fits J s from left start.
Proof.
  intros (keep & rest & E & R & F) Jt. apply Forall2_app_inv_r in F as (k1 & k2 & F1 & F2 & ->). exists k1, (k2 ++ rest).
  split; [rewrite E, <- app_assoc; reflexivity|]. split; [congruence|exact F1].
Qed.
Lemma agrees_carried next nb id elements phis p : brothers id next nb elements -> map_result phi_record (phi_instructions nb) = Ok phis ->
  forall a v, agrees elements phis p a v -> carried nb p a v.
Proof.
  intros Hb M a v. pose proof Hb as (B & Jn & Ii & Ee).
  assert (G : forall is ps, map_result phi_record is = Ok ps -> (forall f, In f ps -> exists i, In i is /\ hd_error (li_outs i) = Some (p_out f) /\ li_ins i = p_ins f)
                /\ (forall i u, In i is -> hd_error (li_outs i) = Some u -> In u (map p_out ps))).
  { induction is as [|i is IH]; intros ps H; cbn [map_result] in H; [injection H as <-; split; [intros f []|intros i u []]|].
    unfold phi_record at 1 in H. destruct (hd_error (li_outs i)) as [o|] eqn:Ho; cbn [of_option bind] in H; [|discriminate].
    destruct (map_result phi_record is) as [ps'|]; cbn [bind] in H; [|discriminate]. injection H as <-. destruct (IH ps' eq_refl) as (I1 & I2). split.
    - intros f [<-|If]; [exists i; cbn; auto|]. destruct (I1 f If) as (j & Ij & R). exists j. split; [now right|exact R].
    - intros j u [<-|Ij] Hu; [left; cbn; congruence|right; eapply I2; eauto]. }
  destruct (G _ _ M) as (G1 & G2).
  intros [R|[(f & If & <- & (k & Kp & Ka))|(N & ->)]].
  - left. right. left. exact R.
  - right. left. destruct (G1 f If) as (i & Ii' & Ho & Hin). exists i, k. split; [exact Ii'|]. split; [exact Ho|]. rewrite Hin. split; [|exact Ka].
    destruct (ok_phis _ _ OK _ _ _ B Ii') as (Ne & _). rewrite Ee in Kp. destruct (cb_entries nb); [contradiction|exact Kp].
  - right. right. split; [|reflexivity]. intros (i & Ii' & Ho). apply N. eapply G2; eauto.
Qed.
Lemma phi_records_ok next nb phis : block_at env next nb -> map_result phi_record (phi_instructions nb) = Ok phis ->
  NoDup (map p_out phis) /\ (forall f, In f phis -> length (p_ins f) = length (cb_entries nb) /\ ~ In "bottom" (p_ins f))
  /\ (forall i, ~ In (pseudo i) (map p_out phis)) /\ (forall u, In u (map p_out phis) <-> phi_result nb u).
Proof.
  intros B M.
  assert (G : forall is ps, map_result phi_record is = Ok ps -> map (fun i => hd_error (li_outs i)) is = map Some (map p_out ps) /\ map li_ins is = map p_ins ps).
  { induction is as [|i is IH]; intros ps H; cbn [map_result] in H; [injection H as <-; split; reflexivity|].
    unfold phi_record at 1 in H. destruct (hd_error (li_outs i)) as [o|] eqn:Ho; cbn [of_option bind] in H; [|discriminate].
    destruct (map_result phi_record is) as [ps'|]; cbn [bind] in H; [|discriminate]. injection H as <-. destruct (IH ps' eq_refl) as (I1 & I2).
    cbn [map p_out p_ins]. rewrite Ho, I1, I2. split; reflexivity. }
  destruct (G _ _ M) as (G1 & G2).
  assert (Res : forall u, In u (map p_out phis) <-> phi_result nb u).
  { intros u. unfold phi_result. split.
    - intros H. assert (In (Some u) (map Some (map p_out phis))) as H' by now apply in_map. rewrite <- G1 in H'. apply in_map_iff in H' as (i & E & I). eauto.
    - intros (i & I & E). assert (In (Some u) (map Some (map p_out phis))) as H' by (rewrite <- G1, <- E; now apply (in_map (fun i => hd_error (li_outs i)))).
      apply in_map_iff in H' as (u' & Eu & Iu). congruence. }
  split; [|split; [|split; [|exact Res]]].
  - pose proof (ok_phi_outs _ _ OK _ _ B) as N. rewrite G1 in N. now apply NoDup_map_inv in N.
  - intros f If. assert (In (p_ins f) (map li_ins (phi_instructions nb))) as H by (rewrite G2; now apply in_map). apply in_map_iff in H as (i & <- & Ii).
    destruct (ok_phis _ _ OK _ _ _ B Ii) as (_ & _ & L & Nb & _). auto.
  - intros i H. apply Res in H as (j & Ij & Ho). destruct (ok_phis _ _ OK _ _ _ B Ij) as (_ & _ & _ & _ & u & Hu & Nr). apply Nr. exists i. congruence.
Qed.

(** The layouts computed for the predecessors of a block. *)
Lemma unify_spec lv id input next elements nb combined stacks lv' :
  extends lv0 lv -> brothers id next nb elements -> unify env lv id input (next, elements, phi_instructions nb) = Ok (combined, stacks, lv') ->
  extends lv0 lv' /\ NoDup (map fst stacks) /\ needs next combined /\ (forall p s, lookup p stacks = Some s -> In p elements)
  /\ forall p, In p elements -> exists o, lookup p stacks = Some o /\ fits J nb p o combined
       /\ forall l0 v, lookup p lv0 = Some l0 -> In v (lv_out l0) -> p <> next -> ~ phi_result nb v -> In v o.
Proof.
  intros EX Hb. unfold unify. destruct (combined_liveness lv next elements) as [live|] eqn:CL; cbn [bind]; [|discriminate].
  destruct (map_result phi_record (phi_instructions nb)) as [phis|] eqn:MP; cbn [bind]; [|discriminate].
  destruct (lookup next (le_order env)) as [info|]; cbn [of_option bind]; [|discriminate].
  pose proof Hb as (B & Jn & Iid & Ee).
  destruct (combined_liveness_spec _ _ _ _ CL) as ((ln & Ln & Lt) & Le).
  destruct (phi_records_ok next nb phis B MP) as (NP & PI & PB & PR).
  pose proof (elements_NoDup _ _ _ _ Hb) as NE.
  destruct (ok_live _ _ OK _ _ B) as (l0n & L0n & Nin & Nout & Phin & _).
  destruct (EX next l0n L0n) as (ln' & Ln' & (S1 & S2 & S3 & S4)). rewrite Ln in Ln'. injection Ln' as <-.
  assert (Nlt : NoDup (in_vars ln)) by (unfold in_vars; rewrite S1; now apply union_NoDup).
  assert (Hl : forall p, In p elements -> exists lp, lookup p live = Some lp) by (intros p Ip; destruct (Le p Ip) as (_ & _ & _ & v & Q); eauto).
  assert (Hi : forall f, In f phis -> length (p_ins f) = length elements).
  { intros f If. destruct (PI f If) as (L & _). rewrite L, Ee. destruct (cb_entries nb) eqn:En; [|reflexivity].
    exfalso. assert (H : In (p_out f) (map p_out phis)) by now apply in_map. apply PR in H as (i & Ii & _). destruct (ok_phis _ _ OK _ _ _ B Ii) as (Ne & _). congruence. }
  assert (Fin : forall junk, junk = can_have_junk env id -> unified elements phis (in_vars ln) live junk combined stacks ->
     needs next combined /\ (forall p s, lookup p stacks = Some s -> In p elements)
     /\ forall p, In p elements -> exists o, lookup p stacks = Some o /\ fits J nb p o combined
       /\ forall l0 v, lookup p lv0 = Some l0 -> In v (lv_out l0) -> p <> next -> ~ phi_result nb v -> In v o).
  { intros junk Ej (U1 & U2 & U3). split; [|split; [exact U2|]].
    - intros l0 L0 v Iv. rewrite L0n in L0. injection L0 as <-. apply U1. apply in_union. left. congruence.
    - intros p Ip. destruct (U3 p Ip) as (agreed & rest & L & F & R & C). exists (agreed ++ rest). split; [exact L|]. split.
      + exists agreed, rest. split; [reflexivity|]. split.
        * intros Jf. apply R. rewrite Ej. destruct (can_have_junk env id) eqn:Q; [|reflexivity]. apply junk_flag in Q. congruence.
        * eapply Forall2_imp; [|exact F]. apply (agrees_carried next nb id elements phis p Hb MP).
      + intros l0 v L0 Iv Np Nv. apply in_app_iff. left. destruct (Le p Ip) as (lp & Lp & Q & _). specialize (Q Np).
        destruct (EX p l0 L0) as (lp' & Lp' & (_ & S2' & _ & _)). rewrite Lp in Lp'. injection Lp' as <-.
        assert (Bp : exists pb, block_at env p pb).
        { apply (elements_In _ _ _ _ Hb) in Ip. destruct (ok_preds _ _ OK _ _ _ B Ip) as (pb & Bp & _). eauto. }
        destruct Bp as (pb & Bp). destruct (ok_live _ _ OK _ _ Bp) as (l0' & L0' & _ & _ & _ & Rv). rewrite L0 in L0'. injection L0' as <-.
        destruct (Rv v Iv) as (Rv1 & Rv2). apply (C _ v Q); auto.
        * apply in_union. left. congruence.
        * rewrite PR. exact Nv.
        * intros u Iu. apply PR, Phin in Iu. apply in_union. left. congruence. }
  destruct (match elements with [e1; e2] => preserve_junk_dominance env e1 e2 | _ => None end) as [path|].
  - destruct (unify_stacks_dominant next elements live phis info id input (can_have_junk env id)) as [[[c s] values]|] eqn:U; cbn [bind]; [|discriminate].
    destruct (hd_error (rev path)) as [last|]; cbn [of_option bind]; [|discriminate]. destruct (lookup last s) as [ol|]; cbn [of_option bind]; [|discriminate].
    destruct (preserve_stack_dominant_path env path ol values lv) as [lv2|] eqn:Pr; cbn [bind]; [|discriminate]. intros H. injection H as -> -> <-.
    split; [eapply preserve_extends; eauto|]. split.
    { unfold unify_stacks_dominant in U. destruct (generate_phi_func _ _ _ _) as [[? ?]|]; cbn [bind] in U; [|discriminate].
      do 3 match type of U with (do r <- ?w; _) = _ => destruct w; cbn [bind] in U; [|discriminate U] end.
      match type of U with (do r <- ?w; _) = _ => destruct w as [[c' s']|] eqn:W; cbn [bind] in U; [|discriminate U] end.
      assert (s' = stacks) as -> by congruence. eapply unify_with_NoDup; eauto. }
    apply (Fin _ eq_refl). apply (dominant_weak next elements live phis (in_vars ln) NE Lt Nlt Hl NP Hi PB (fun f If => proj2 (PI f If)) _ _ _ _ _ _ _ U).
  - destruct (unify_stacks_brothers next elements live phis info id input (can_have_junk env id)) as [[c s]|] eqn:U; cbn [bind]; [|discriminate].
    intros H. injection H as -> -> <-. split; [exact EX|]. split.
    { unfold unify_stacks_brothers in U. destruct (generate_phi_func _ _ _ _) as [[? ?]|]; cbn [bind] in U; [|discriminate].
      destruct (live_of _ _); cbn [bind] in U; [|discriminate]. eapply unify_with_NoDup; eauto. }
    apply (Fin _ eq_refl). apply (brothers_weak next elements live phis (in_vars ln) NE Lt Nlt Hl NP Hi PB _ _ _ _ _ _ U).
Qed.

Definition ready (tr : list string) (id : string) : Prop := id = le_start env \/ exists p pb, In p tr /\ block_at env p pb /\ In id (successors pb).
Definition source_ok (st : layouts) (b : cblock) (input : list string) : Prop :=
  match cb_comes_from b with
  | [] => exists dropped, le_inputs env = input ++ dropped /\ (J = false -> dropped = [])
  | _ => forall p, In p (cb_comes_from b) -> exists op, lookup p (ly_out st) = Some op /\ fits J b p op input
  end.

Lemma done_out tr pending st x : inv tr pending st -> In x tr -> exists o, lookup x (ly_out st) = Some o.
Proof. intros I Hx. destruct (i_done _ _ _ I x Hx) as (_ & b & i & f & o & r & _ & _ & L & _). eauto. Qed.

Lemma filter_all {A} (f : A -> bool) l : (forall x, In x l -> f x = true) -> filter f l = l.
Proof. induction l as [|x l IH]; intros H; cbn [filter]; [reflexivity|]. rewrite (H x (or_introl eq_refl)), IH; [reflexivity|]. intros; apply H; now right. Qed.
Lemma filter_le {A} (f : A -> bool) l : length (filter f l) <= length l.
Proof. induction l as [|x l IH]; cbn [filter length]; [lia|]. destruct (f x); cbn [length]; lia. Qed.

(** The stack a block starts with. *)
Lemma input_ok tr pending st id b input : inv tr pending st -> ~ In id tr -> ready tr id -> block_at env id b ->
  input_stack_of env st id b = Ok input ->
  needs id input /\ source_ok st b input /\ (id = le_start env -> cb_comes_from b = [])
  /\ (forall q, In q (cb_comes_from b) -> lookup q (ly_out st) <> None).
Proof.
  intros I Nid R B. unfold input_stack_of, source_ok. destruct (cb_comes_from b) as [|p0 ps] eqn:C.
  - intros H. injection H as <-. split; [|split; [exists []; rewrite app_nil_r; auto|split; [auto|intros q []]]].
    destruct R as [->|(p & pb & Hp & Bp & Sp)]; [exact (ok_live_start _ _ OK)|].
    destruct (ok_succs _ _ OK _ _ _ Bp Sp) as (sb & Bs & Is). unfold block_at in B, Bs. rewrite B in Bs. injection Bs as <-. rewrite C in Is. destruct Is.
  - destruct R as [->|(p & pb & Hp & Bp & Sp)].
    { destruct (i_begin _ _ _ I Nid) as (_ & O). rewrite O.
      assert (F : forall l : list string, filter (fun q => match lookup q (@nil (string * list string)) with Some _ => true | None => false end) l = []).
      { induction l as [|x l IH]; [reflexivity|]. cbn [filter lookup]. exact IH. }
      rewrite F. cbn. discriminate. }
    destruct (ok_succs _ _ OK _ _ _ Bp Sp) as (sb & Bs & Is). unfold block_at in Bs. unfold block_at in B. rewrite B in Bs. injection Bs as <-. fold (block_at env id b) in B.
    destruct (done_out _ _ _ p I Hp) as (op & Lp). rewrite C in Is.
    assert (Nst : id <> le_start env).
    { intros ->. destruct (i_begin _ _ _ I Nid) as (-> & _). destruct Hp. }
    destruct (Nat.lt_ge_cases 1 (length (cb_comes_from b))) as [Jn|Jn].
    + destruct (i_join _ _ _ I id b B Jn) as [(_ & N)|(c & Lc & Nc & Fc)].
      { exfalso. rewrite C in N. specialize (N p Is). congruence. }
      rewrite C in Jn, Fc. rewrite filter_all.
      2: { intros q Iq. destruct (Fc q Iq) as (o & -> & _). reflexivity. }
      destruct (Nat.ltb_spec 1 (length (p0 :: ps))) as [_|]; [|lia]. rewrite Lc. cbn [of_option]. intros H. injection H as <-.
      split; [exact Nc|]. split; [exact Fc|]. split; [intros; contradiction|]. intros q Iq. destruct (Fc q Iq) as (o & -> & _). discriminate.
    + rewrite C in Jn. destruct ps as [|p1 ps]; [|cbn [length] in Jn; lia]. destruct Is as [->|[]].
      match goal with |- context [filter ?f [p]] => pose proof (filter_le f [p]) as Le; destruct (Nat.ltb_spec 1 (length (filter f [p]))) as [Lt|_] end.
      { cbn [length] in Le. lia. }
      rewrite Lp. cbn [of_option]. intros H. injection H as <-.
      assert (NJ : ~ join b) by (unfold join; rewrite C; cbn [length]; lia).
      split; [|split; [|split; [intros; contradiction|]]].
      * intros l0 L0 v Iv. destruct (ok_live _ _ OK _ _ Bp) as (lp & Llp & _).
        apply (proj1 (i_out _ _ _ I p op Lp) lp Llp).
        -- apply (ok_live_edge _ _ OK p pb id b lp l0 Bp Sp B NJ Llp L0). exact Iv.
        -- intros s sb' Bs Js Is Ph. apply (ok_preds _ _ OK _ _ _ Bs) in Is as (pb' & Bp' & Ss). unfold block_at in Bp, Bp'. rewrite Bp in Bp'. injection Bp' as <-.
           apply (ok_live_phi _ _ OK p pb s sb' id b l0 v Bp Ss Bs Ph Sp); auto.
           intros ->. unfold block_at in B, Bs. rewrite B in Bs. injection Bs as <-. contradiction.
      * intros q [<-|[]]. exists op. split; [exact Lp|]. exists op, []. split; [now rewrite app_nil_r|]. split; [reflexivity|].
        apply Forall2_self. intros u _. right. right. split; [|reflexivity]. intros (i & Ii & _).
        destruct (ok_phis _ _ OK _ _ _ B Ii) as (_ & Jb & _). contradiction.
      * intros q [<-|[]]. congruence.
Qed.

Lemma forget_ok st id b l l0 input0 : let input := if can_have_junk env id then forget_values input0 (in_vars l) else input0 in
  lookup id lv0 = Some l0 -> same_live l0 l -> needs id input0 -> source_ok st b input0 ->
  needs id input /\ source_ok st b input /\ exists dropped, input0 = input ++ dropped /\ (J = false -> dropped = []).
Proof.
  intros input L0 (S1 & _) N S. unfold input. destruct (can_have_junk env id) eqn:CJ.
  - apply junk_flag in CJ. destruct (forget_values_correct input0 (in_vars l)) as (dropped & E & D & _). split; [|split].
    + intros l0' L0' v Iv. rewrite L0 in L0'. injection L0' as <-. specialize (N l0 L0 v Iv). rewrite E in N. apply in_app_iff in N as [N|N]; [exact N|].
      exfalso. apply (D v N). apply in_union. left. congruence.
    + unfold source_ok in *. destruct (cb_comes_from b).
      * destruct S as (d & Ei & _). exists (dropped ++ d). rewrite Ei, E at 1. rewrite <- app_assoc. split; [reflexivity|congruence].
      * intros p Ip. destruct (S p Ip) as (op & Lp & F). exists op. split; [exact Lp|]. rewrite E in F. exact (fits_prefix _ _ _ _ _ F CJ).
    + exists dropped. split; [exact E|congruence].
  - split; [exact N|]. split; [exact S|]. exists []. rewrite app_nil_r. auto.
Qed.

Lemma source_stable st st' b input : (forall p o, lookup p (ly_out st) = Some o -> lookup p (ly_out st') = Some o) -> source_ok st b input -> source_ok st' b input.
Proof.
  intros S. unfold source_ok. destruct (cb_comes_from b); [auto|]. intros H p Ip. destruct (H p Ip) as (o & L & F). eauto.
Qed.

(** What one block adds. *)
Lemma construct_ok tr pending st id b st' : inv tr pending st -> ~ In id tr -> ready tr id -> block_at env id b ->
  construct_block env udict st id b = Ok st' ->
  extends lv0 (ly_live st')
  /\ (forall p o, lookup p (ly_out st) = Some o -> lookup p (ly_out st') = Some o)
  /\ (forall x, x <> id -> lookup x (ly_spec st') = lookup x (ly_spec st))
  /\ (exists input f o rest, lookup id (ly_spec st') = Some (substitute_duplicates input, f) /\ lookup id (ly_out st') = Some o /\ f = o ++ rest
       /\ (J = false -> rest = []) /\ needs id input /\ source_ok st' b input)
  /\ (forall p o, lookup p (ly_out st') = Some o -> covers p o /\
       (p = id \/ lookup p (ly_out st) <> None \/ exists s sb, block_at env s sb /\ join sb /\ In p (cb_comes_from sb) /\ joined st' s sb))
  /\ (forall s sb, block_at env s sb -> join sb -> joined st s sb -> joined st' s sb)
  /\ (forall s sb, block_at env s sb -> join sb -> (forall q, In q (cb_comes_from sb) -> lookup q (ly_out st) = None) ->
       s <> id /\ ((forall q, In q (cb_comes_from sb) -> lookup q (ly_out st') = None) \/ joined st' s sb))
  /\ (id = le_start env -> cb_comes_from b = []).
Proof.
  intros I Nid R B. unfold construct_block.
  destruct (ok_live _ _ OK _ _ B) as (l0 & L0 & Nin & Nout & _). destruct (i_live _ _ _ I id l0 L0) as (l & Ll & SL). rewrite Ll. cbn [of_option bind].
  destruct (input_stack_of env st id b) as [input0|] eqn:EI; cbn [bind]; [|discriminate].
  destruct (input_ok _ _ _ _ _ _ I Nid R B EI) as (N0 & S0 & Hst & Hpre).
  destruct (forget_ok st id b l l0 input0 L0 SL N0 S0) as (Ni & Si & dropped & Ed & Jd).
  set (input := if can_have_junk env id then forget_values input0 (in_vars l) else input0) in *.
  assert (SL' : NoDup (out_vars l)) by (unfold out_vars; destruct SL as (_ & S2 & _ & S4); rewrite S2; now apply union_NoDup).
  assert (Alt : forall s sb, block_at env s sb -> join sb -> (forall q, In q (cb_comes_from sb) -> lookup q (ly_out st) = None) -> s <> id).
  { intros s sb Bs Js N ->. unfold block_at in B, Bs. rewrite B in Bs. injection Bs as <-. unfold join in Js. destruct (cb_comes_from b) as [|q qs]; [cbn in Js; lia|].
    apply (Hpre q); [now left|]. apply N. now left. }
  (* the joined blocks, when only the entry of [id] changes in [ly_in] *)
  assert (Keep : forall st1, (forall p o, lookup p (ly_out st) = Some o -> lookup p (ly_out st1) = Some o) ->
            (forall s c, (exists sb, block_at env s sb /\ join sb /\ joined st s sb) -> lookup s (ly_in st) = Some c -> lookup s (ly_in st1) = Some (if String.eqb id s then input else c)) ->
            forall s sb, block_at env s sb -> join sb -> joined st s sb -> joined st1 s sb).
  { intros st1 So Sin s sb Bs Js HJ. pose proof HJ as (c & Lc & Nc & Fc). unfold joined. destruct (String.eqb_spec id s) as [<-|Ns].
    - assert (sb = b) as -> by (unfold block_at in B, Bs; congruence). exists input. split.
      + rewrite (Sin id c); [now rewrite String.eqb_refl|eauto|exact Lc].
      + split; [exact Ni|]. intros q Iq. unfold source_ok in Si. destruct (cb_comes_from b) as [|q0 qs]; [destruct Iq|].
        destruct (Si q Iq) as (o & Lo & Fo). exists o. split; [now apply So|exact Fo].
    - exists c. split; [rewrite (Sin s c); [|eauto|exact Lc]; destruct (String.eqb_spec id s); [contradiction|reflexivity]|].
      split; [exact Nc|]. intros q Iq. destruct (Fc q Iq) as (o & Lo & Fo). exists o. split; [now apply So|exact Fo]. }
  match goal with |- context [match lookup id udict with Some _ => _ | None => ?fr end] => set (fresh := fr) end.
  assert (Fresh : lookup id udict = None -> fresh = Ok st' -> lookup id (ly_out st) = None /\ extends lv0 (ly_live st') /\
       ly_in st' = dict_set id input (ly_in st) /\
       exists f o rest, ly_spec st' = dict_set id (substitute_duplicates input, f) (ly_spec st) /\ ly_out st' = dict_set id o (ly_out st) /\ f = o ++ rest /\ (J = false -> rest = []) /\ covers id o).
  { intros U. split.
    { destruct (lookup id (ly_out st)) as [o|] eqn:Q; [|reflexivity]. destruct (i_out _ _ _ I id o Q) as (_ & [Q'|(s & sb & Bs & Js & Is & _)]); [contradiction|].
      exfalso. exact (udict_None id U s sb Bs Js Is). }
    revert H. unfold fresh. destruct (lookup id (le_order env)) as [info|]; cbn [of_option bind]; [|discriminate].
    destruct (ends_program (cb_type b) || ends_program (le_previous env id)).
    - destruct (propagate_output_correct input (final_stack_elements b) (in_vars l) (out_vars l) info (split_in_args b)) as (new & dr & kept & bot & rem & E & _ & _ & _ & _ & _ & _ & C).
      rewrite E. cbn [bind]. intros H. injection H as <-. cbn. split; [exact (i_live _ _ _ I)|]. split; [reflexivity|]. do 2 eexists. exists []. split; [reflexivity|]. split; [reflexivity|].
      split; [now rewrite app_nil_r|]. split; [reflexivity|]. intros l0' L0' v Iv _. rewrite L0 in L0'. injection L0' as <-. apply in_app_iff. apply C. apply in_union. left. destruct SL as (_ & -> & _). exact Iv.
    - destruct (output_layout_correct input (final_stack_elements b) (out_vars l) info (can_have_junk env id) SL') as (body & tail & E & Nb & Ib & Pb & Tb).
      rewrite E. cbn [bind fst snd]. intros H. injection H as <-. cbn [ly_live ly_in ly_spec ly_out]. split; [exact (i_live _ _ _ I)|]. split; [reflexivity|].
      do 2 eexists. exists tail. split; [reflexivity|]. split; [reflexivity|].
      assert (Q : firstn (length (final_stack_elements b) + length body) (final_stack_elements b ++ body ++ tail) = final_stack_elements b ++ body).
      { rewrite firstn_app_2, firstn_app, firstn_all, Nat.sub_diag. cbn [firstn]. now rewrite app_nil_r. }
      rewrite Q. split; [now rewrite <- app_assoc|]. split.
      + intros Jf. apply Tb. destruct (can_have_junk env id) eqn:CJ; [|reflexivity]. apply junk_flag in CJ. congruence.
      + intros l0' L0' v Iv _. rewrite L0 in L0'. injection L0' as <-. apply in_app_iff.
        destruct (in_dec string_dec v (final_stack_elements b)) as [|Nf]; [now left|]. right. apply Ib. split; [|now right]. apply in_union. left. destruct SL as (_ & -> & _). exact Iv. }
  destruct (lookup id udict) as [[[next elements] phis]|] eqn:U.
  2: { intros H. destruct (Fresh eq_refl H) as (Lid & EX & Ein & f & o & rest & Esp & Eout & Ef & Jr & Cv). clear Fresh.
       assert (So : forall p o', lookup p (ly_out st) = Some o' -> lookup p (ly_out st') = Some o').
       { intros p o' Lp. rewrite Eout, lookup_dict_set. destruct (String.eqb_spec id p) as [->|]; [congruence|exact Lp]. }
       split; [exact EX|]. split; [exact So|]. split.
       { intros x Nx. rewrite Esp, lookup_dict_set. destruct (String.eqb_spec id x); [congruence|reflexivity]. }
       split.
       { exists input, f, o, rest. rewrite Esp, Eout, !lookup_dict_set, String.eqb_refl. repeat (split; [auto; fail|]). eapply source_stable; eauto. }
       split.
       { intros p o' Lp. rewrite Eout, lookup_dict_set in Lp. destruct (String.eqb_spec id p) as [->|Np].
         - injection Lp as <-. split; [exact Cv|now left].
         - split; [exact (proj1 (i_out _ _ _ I p o' Lp))|]. right. left. congruence. }
       split.
       { apply Keep; [exact So|]. intros s c _ Lc. rewrite Ein, lookup_dict_set. destruct (String.eqb_spec id s); [reflexivity|exact Lc]. }
       split; [|exact Hst]. intros s sb Bs Js N. split; [now apply (Alt s sb)|]. left. intros q Iq. rewrite Eout, lookup_dict_set.
       destruct (String.eqb_spec id q) as [<-|]; [|now apply N]. exfalso. exact (udict_None id U s sb Bs Js Iq). }
  clear Fresh. destruct (udict_Some id next elements phis U) as (nb & Hb & ->). pose proof Hb as (Bn & Jn & In_ & _).
  destruct (Nat.ltb_spec 1 (length elements)) as [_|Le]; [|pose proof (elements_length _ _ _ _ Hb); lia].
  destruct (lookup id (ly_out st)) as [out|] eqn:Lid.
  - (* already assigned *)
    intros H. injection H as <-. cbn [ly_live ly_in ly_spec ly_out].
    split; [exact (i_live _ _ _ I)|]. split; [auto|]. split.
    { intros x Nx. rewrite lookup_dict_set. destruct (String.eqb_spec id x); [congruence|reflexivity]. }
    split.
    { exists input, out, out, []. rewrite lookup_dict_set, String.eqb_refl. split; [reflexivity|]. split; [exact Lid|]. split; [now rewrite app_nil_r|]. split; [reflexivity|]. split; [exact Ni|exact Si]. }
    split.
    { intros p o Lp. split; [exact (proj1 (i_out _ _ _ I p o Lp))|]. right. left. congruence. }
    split.
    { apply Keep; [auto|]. intros s c _ Lc. cbn [ly_in]. rewrite lookup_dict_set. destruct (String.eqb_spec id s); [reflexivity|exact Lc]. }
    split; [|exact Hst]. intros s sb Bs Js N. split; [now apply (Alt s sb)|]. left. exact N.
  - (* first of its brothers *)
    destruct (unify env (ly_live st) id input (next, elements, phi_instructions nb)) as [[[combined stacks] lv']|] eqn:UN; cbn [bind]; [|discriminate].
    destruct (unify_spec _ _ _ _ _ _ _ _ _ (i_live _ _ _ I) Hb UN) as (EX & NDs & Nn & Ks & Hs).
    destruct (lookup id (dict_update (ly_out st) stacks)) as [out|] eqn:Lout; cbn [of_option bind]; [|discriminate].
    intros H. injection H as <-.
    (* none of them has a layout yet *)
    assert (None_ : forall q, In q (cb_comes_from nb) -> lookup q (ly_out st) = None).
    { destruct (i_join _ _ _ I next nb Bn Jn) as [(_ & N)|(c & _ & _ & Fc)]; [exact N|]. exfalso. destruct (Fc id In_) as (o & Lo & _). congruence. }
    assert (Nnid : next <> id) by (apply (Alt next nb Bn Jn None_)).
    assert (Hel : forall q, In q elements <-> In q (cb_comes_from nb)) by (apply (elements_In _ _ _ _ Hb)).
    assert (So : forall p o, lookup p (ly_out st) = Some o -> lookup p (dict_update (ly_out st) stacks) = Some o).
    { intros p o Lp. destruct (dict_update_lookup stacks (ly_out st) p) as (D1 & _). rewrite D1; [exact Lp|].
      destruct (lookup p stacks) as [s|] eqn:Q; [|reflexivity]. apply Ks, Hel, None_ in Q. congruence. }
    assert (Sn : forall p, In p elements -> exists o, lookup p (dict_update (ly_out st) stacks) = Some o /\ fits J nb p o combined
                  /\ forall l0 v, lookup p lv0 = Some l0 -> In v (lv_out l0) -> p <> next -> ~ phi_result nb v -> In v o).
    { intros p Ip. destruct (Hs p Ip) as (o & Lo & Q). exists o. split; [|exact Q]. now apply (proj2 (dict_update_lookup stacks (ly_out st) p) NDs). }
    assert (Jd' : forall st1, ly_out st1 = dict_update (ly_out st) stacks -> lookup next (ly_in st1) = Some combined -> joined st1 next nb).
    { intros st1 E1 E2. exists combined. split; [exact E2|]. split; [exact Nn|]. intros q Iq. apply Hel in Iq. destruct (Sn q Iq) as (o & Lo & Fo & _). exists o. rewrite E1. auto. }
    cbn [ly_live ly_in ly_spec ly_out].
    split; [exact EX|]. split; [exact So|]. split.
    { intros x Nx. rewrite lookup_dict_set. destruct (String.eqb_spec id x); [congruence|reflexivity]. }
    split.
    { exists input, out, out, []. rewrite lookup_dict_set, String.eqb_refl. split; [reflexivity|]. split; [exact Lout|]. split; [now rewrite app_nil_r|]. split; [reflexivity|]. split; [exact Ni|].
      eapply source_stable; [|exact Si]. exact So. }
    split.
    { intros p o Lp. destruct (in_dec string_dec p elements) as [Ip|Np].
      - destruct (Sn p Ip) as (o' & Lo & _ & Cv). rewrite Lp in Lo. injection Lo as <-. split.
        + intros l0p L0p v Iv Nv. apply (Cv l0p v L0p Iv).
          * intros ->. apply (ok_self _ _ OK next nb Bn). now apply Hel.
          * apply (Nv next nb Bn Jn). now apply Hel.
        + right. right. exists next, nb. split; [exact Bn|]. split; [exact Jn|]. split; [now apply Hel|]. apply Jd'; [reflexivity|]. cbn [ly_in]. rewrite lookup_dict_set, String.eqb_refl. reflexivity.
      - assert (Q : lookup p (ly_out st) = Some o).
        { destruct (dict_update_lookup stacks (ly_out st) p) as (D1 & _). rewrite <- D1; [exact Lp|]. destruct (lookup p stacks) as [s|] eqn:Q; [|reflexivity]. apply Ks in Q. contradiction. }
        split; [exact (proj1 (i_out _ _ _ I p o Q))|]. right. left. congruence. }
    split.
    { apply Keep; [exact So|]. intros s c (sb & Bs & Js & HJ) Lc. cbn [ly_in]. rewrite !lookup_dict_set. destruct (String.eqb_spec next s) as [->|Ns].
      - exfalso. destruct HJ as (cc & _ & _ & Fc). assert (sb = nb) as -> by (unfold block_at in Bn, Bs; congruence). destruct (Fc id In_) as (o & Lo & _). congruence.
      - destruct (String.eqb_spec id s); [reflexivity|exact Lc]. }
    split; [|exact Hst]. intros s sb Bs Js N. split; [now apply (Alt s sb)|]. destruct (string_dec s next) as [->|Ns].
    + right. assert (sb = nb) as -> by (unfold block_at in Bn, Bs; congruence). apply Jd'; [reflexivity|]. cbn [ly_in]. rewrite lookup_dict_set, String.eqb_refl. reflexivity.
    + left. intros q Iq. destruct (dict_update_lookup stacks (ly_out st) q) as (D1 & _). rewrite D1; [now apply N|].
      destruct (lookup q stacks) as [o|] eqn:Q; [|reflexivity]. exfalso. apply Ks, Hel in Q. apply Ns. exact (one_join q s sb next nb Bs Bn Js Jn Iq Q).
Qed.

Lemma new_entries depth tr ss : forall new0 new, for_each (fun new s => if mem s tr then Ok new else
    do d <- of_option (lookup s (le_depth env)); Ok (new ++ [(d, S depth, s)])) ss new0 = Ok new ->
  (forall d r x, In (d, r, x) new -> In (d, r, x) new0 \/ In x ss) /\ (forall d r x, In (d, r, x) new0 -> In (d, r, x) new)
  /\ (forall x, In x ss -> In x tr \/ exists d r, In (d, r, x) new).
Proof.
  induction ss as [|s ss IH]; intros new0 new H; cbn [for_each] in H.
  - injection H as <-. split; [auto|]. split; [auto|intros x []].
  - destruct (mem s tr) eqn:M.
    + cbn [bind] in H. destruct (IH _ _ H) as (I1 & I2 & I3). split; [intros d r x Hx; destruct (I1 d r x Hx); [auto|right; now right]|].
      split; [exact I2|]. intros x [<-|Ix]; [left; now apply mem_In|auto].
    + destruct (lookup s (le_depth env)) as [d0|]; cbn [of_option bind] in H; [|discriminate]. destruct (IH _ _ H) as (I1 & I2 & I3). split; [|split].
      * intros d r x Hx. destruct (I1 d r x Hx) as [Q|Q]; [|right; now right]. apply in_app_iff in Q as [Q|[Q|[]]]; [auto|]. injection Q as <- <- <-. right. now left.
      * intros d r x Hx. apply I2. apply in_app_iff. now left.
      * intros x [<-|Ix]; [right; exists d0, (S depth); apply I2; apply in_app_iff; right; now left|auto].
Qed.

Lemma ready_reached tr pending st id : inv tr pending st -> ready tr id -> reached env id.
Proof.
  intros I [->|(p & pb & Hp & Bp & Sp)]; [constructor|]. destruct (i_done _ _ _ I p Hp) as (Rp & _). econstructor; eauto.
Qed.

(** One block has been taken from the heap. *)
Lemma loop_step d depth id rest e es tr st b st1 new : inv tr (e :: es) st -> pop_min e es = ((d, depth, id), rest) -> ~ In id tr ->
  lookup id (le_blocks env) = Some b -> construct_block env udict st id b = Ok st1 ->
  for_each (fun new s => if mem s (id :: tr) then Ok new else
    do d <- of_option (lookup s (le_depth env)); Ok (new ++ [(d, S depth, s)])) (successors b) [] = Ok new ->
  inv (id :: tr) (rest ++ new) st1.
Proof.
    intros I PM M B CB NW. pose proof (pop_min_In es e (d, depth, id) rest PM) as PI.
    destruct (new_entries _ _ _ _ _ NW) as (W1 & _ & W3).
    assert (R : ready tr id).
    { apply (i_pending _ _ _ I d depth id). apply PI. now left. }
    pose proof (ready_reached _ _ _ _ I R) as RR.
    destruct (construct_ok _ _ _ _ _ _ I M R B CB) as (C1 & C2 & C3 & C4 & C5 & C6 & C7 & C8).
    constructor.
    + exact C1.
    + intros x [<-|Hx].
      * split; [exact RR|]. destruct C4 as (input & f & o & rs & Q1 & Q2 & Q3 & Q4 & Q5 & Q6). exists b, input, f, o, rs. auto 10.
      * destruct (i_done _ _ _ I x Hx) as (Rx & b' & input & f & o & rs & Q0 & Q1 & Q2 & Q3 & Q4 & Q5 & Q6). split; [exact Rx|].
        exists b', input, f, o, rs. split; [exact Q0|]. split; [rewrite C3; [exact Q1|intros ->; contradiction]|]. split; [now apply C2|]. split; [exact Q3|]. split; [exact Q4|]. split; [exact Q5|].
        exact (source_stable st st1 b' input C2 Q6).
    + intros Hs b' B'. destruct (string_dec id (le_start env)) as [E|E].
      * subst id. unfold block_at in B'. rewrite B in B'. injection B' as <-. now apply C8.
      * destruct Hs as [Hs|Hs]; [contradiction|]. now apply (i_start _ _ _ I Hs).
    + intros p o Lp. destruct (C5 p o Lp) as (Cv & Q). split; [exact Cv|]. destruct Q as [->|[Q|Q]]; [left; now left| |now right].
      destruct (lookup p (ly_out st)) as [o'|] eqn:Lp'; [|contradiction]. destruct (i_out _ _ _ I p o' Lp') as (_ & [Q'|(s & sb & Bs & Js & Is & HJ)]); [left; now right|].
      right. exists s, sb. auto 10.
    + intros s sb Bs Js. destruct (i_join _ _ _ I s sb Bs Js) as [(Ns & N)|HJ]; [|right; now apply C6].
      destruct (C7 s sb Bs Js N) as (Nid & [Q|Q]); [|now right]. left. split; [|exact Q]. intros [->|Q']; [now apply Nid|contradiction].
    + intros d' r x Hx. apply in_app_iff in Hx as [Hx|Hx].
      * destruct (i_pending _ _ _ I d' r x) as [Q|(p & pb & Hp & Bp & Sp)]; [apply PI; now right|now left|]. right. exists p, pb. split; [now right|auto].
      * apply W1 in Hx as [[]|Hx]. right. exists id, b. split; [now left|]. split; [exact B|exact Hx].
    + intros p pb s [<-|Hp] Bp Hs.
      * unfold block_at in Bp. rewrite B in Bp. injection Bp as <-. destruct (W3 s Hs) as [Q|(d' & r & Q)]; [now left|]. right. exists d', r. apply in_app_iff. now right.
      * destruct (i_closed _ _ _ I p pb s Hp Bp Hs) as [Q|(d' & r & Q)]; [left; now right|]. apply PI in Q as [Q|Q]; [injection Q as _ _ <-; left; now left|].
        right. exists d', r. apply in_app_iff. now left.
    + destruct (i_first _ _ _ I) as [Q|(d' & r & Q)]; [left; now right|]. apply PI in Q as [Q|Q]; [injection Q as _ _ <-; left; now left|].
      right. exists d', r. apply in_app_iff. now left.
    + intros N. exfalso. destruct (in_dec string_dec (le_start env) tr) as [Q|Q]; [apply N; now right|].
      destruct (i_begin _ _ _ I Q) as (-> & _). destruct R as [->|(p & pb & [] & _)]. apply N. now left.
Qed.

Lemma loop_inv : forall fuel pending tr st st', inv tr pending st -> construct_loop fuel env udict pending tr st = Ok st' ->
  exists tr', inv tr' [] st'.
Proof.
  induction fuel as [|fuel IH]; intros pending tr st st' I H; cbn [construct_loop] in H; destruct pending as [|e es]; try discriminate;
    try (injection H as <-; eauto).
  destruct (pop_min e es) as [[[d depth] id] rest] eqn:PM. pose proof (pop_min_In es e (d, depth, id) rest PM) as PI. destruct (mem id tr) eqn:M.
  - apply mem_In in M. apply (IH rest tr st st'); [|exact H]. destruct I. constructor; auto.
    + intros d' r x Hx. apply (i_pending0 d' r x). apply PI. now right.
    + intros p pb s Hp Bp Hs. destruct (i_closed0 p pb s Hp Bp Hs) as [Q|(d' & r & Q)]; [now left|]. apply PI in Q as [Q|Q]; [injection Q as _ _ <-; now left|right; eauto].
    + destruct i_first0 as [Q|(d' & r & Q)]; [now left|]. apply PI in Q as [Q|Q]; [injection Q as _ _ <-; now left|right; eauto].
  - apply mem_false in M. destruct (lookup id (le_blocks env)) as [b|] eqn:B; cbn [of_option bind] in H; [|discriminate].
    destruct (construct_block env udict st id b) as [st1|] eqn:CB; cbn [bind] in H; [|discriminate].
    match type of H with (do new <- ?w; _) = _ => destruct w as [new|] eqn:NW; cbn [bind] in H; [|discriminate] end.
    apply (IH (rest ++ new) (id :: tr) st1 st'); [|exact H]. exact (loop_step _ _ _ _ _ _ _ _ _ _ _ I PM M B CB NW).
Qed.

Lemma inv_initial : inv [] [(0, 0, le_start env)] {| ly_in := []; ly_out := []; ly_live := lv0; ly_spec := [] |}.
Proof.
  constructor; cbn [ly_in ly_out ly_live ly_spec].
  - intros x l0 L0. exists l0. split; [exact L0|]. destruct (ok_extra _ _ OK x l0 L0) as (E1 & E2). unfold same_live. rewrite E1, E2. repeat split; constructor.
  - intros x [].
  - intros [].
  - intros p o H. discriminate.
  - intros s sb _ _. left. split; [intros []|]. intros q _. reflexivity.
  - intros d r x [H|[]]. injection H as _ _ <-. now left.
  - intros p pb s [].
  - right. exists 0, 0. now left.
  - auto.
Qed.

Theorem traversal_fits st : construct_code_from_block_list env lv0 = Ok st -> layouts_fit env lv0 (ly_spec st).
Proof.
  intros H. destruct (loop_inv _ _ _ _ _ inv_initial H) as (tr & I).
  assert (RT : forall x, reached env x -> In x tr).
  { intros x R. induction R as [|a b s R IH B S].
    - destruct (i_first _ _ _ I) as [Q|(d & r & [])]. exact Q.
    - destruct (i_closed _ _ _ I a b s IH B S) as [Q|(d & r & [])]. exact Q. }
  constructor.
  - intros x R. destruct (i_done _ _ _ I x (RT x R)) as (_ & b & input & f & o & rs & _ & L & _). eauto.
  - pose proof (RT _ (reached_start env)) as Hs. destruct (i_done _ _ _ I _ Hs) as (_ & b & input & f & o & rs & B & L & _ & _ & _ & _ & Q).
    rewrite (i_start _ _ _ I Hs b B) in Q. destruct Q as (dropped & E & D). exists f, input, dropped. auto.
  - intros x b s sb i f i' f' R B S Bs Lx Ls. pose proof (RT x R) as Tx. pose proof (RT s (reached_step env x b s R B S)) as Ts.
    destruct (i_done _ _ _ I x Tx) as (_ & bx & inx & fx & ox & rx & Bx & Lx' & Ox & Ef & Jf & _ & _). rewrite Lx in Lx'. injection Lx' as _ <-.
    destruct (i_done _ _ _ I s Ts) as (_ & bs & ins & fs & os & rs & Bs' & Ls' & _ & _ & _ & _ & Q). rewrite Ls in Ls'. injection Ls' as -> _.
    assert (bs = sb) as -> by (unfold block_at in Bs, Bs'; congruence).
    destruct (ok_succs _ _ OK _ _ _ B S) as (sb' & Bs2 & Ix). assert (sb' = sb) as -> by (unfold block_at in Bs, Bs2; congruence).
    destruct (cb_comes_from sb) as [|q qs]; [destruct Ix|]. destruct (Q x Ix) as (op & Lop & (keep & rest & Eo & Jr & F)). rewrite Ox in Lop. injection Lop as <-.
    exists keep, (rest ++ rx). split; [rewrite Ef, Eo, <- app_assoc; reflexivity|]. split.
    + intros Jn. rewrite (Jr Jn), (Jf Jn). reflexivity.
    + eapply Forall2_imp; [|exact (Forall2_comp _ _ _ _ _ F (substitute_named ins))]. intros v u' (u & C & [->|(n & ->)]); [exact C|]. left. right. right. eauto.
  - intros x l i f R L Lx v Iv. destruct (i_done _ _ _ I x (RT x R)) as (_ & bx & inx & fx & ox & rx & Bx & Lx' & _ & _ & _ & Nx & _). rewrite Lx in Lx'. injection Lx' as -> _.
    apply substitute_incl. exact (Nx l L v Iv).
Qed.
End Traversal.
