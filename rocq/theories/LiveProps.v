(** C10-C12: liveness. *)
From Coq Require Import Relations.
From Verif Require Import Base UtilModel UtilProps LevelProps GraphProps UnifyProps LiveModel LiveSpec.
Open Scope string_scope. Open Scope list_scope.

(* --- sets --- *)
Lemma union_In x a b : In x (union a b) <-> In x a \/ In x b.
Proof. unfold union. rewrite in_app_iff, filter_In, negb_true_iff, mem_false. destruct (in_dec string_dec x a); tauto. Qed.
Lemma diff_In x a b : In x (diff a b) <-> In x a /\ ~ In x b.
Proof. unfold diff. rewrite filter_In, negb_true_iff, mem_false. tauto. Qed.
Lemma subset_incl a b : subset a b = true <-> incl a b.
Proof. unfold subset. rewrite forallb_forall. split; intros H x I; [apply mem_In|apply mem_In]; auto. Qed.

(* --- events --- *)
Lemma needed_app v a b : needed v (a ++ b) <-> needed v a \/ (~ In (Write v) a /\ needed v b).
Proof.
  split.
  - intros (pre & post & E & N). revert pre E N. induction a as [|e a IH]; intros pre E N.
    + right. split; [tauto|]. exists pre, post. auto.
    + destruct pre as [|e' pre]; simpl in E; injection E as -> E.
      * left. exists [], a. split; [reflexivity|tauto].
      * destruct (IH pre E) as [(p & q & -> & N')|(N' & H)]; [intros I; apply N; now right| |].
        -- left. exists (e' :: p), q. split; [reflexivity|]. intros [->|I]; [apply N; now left|auto].
        -- right. split; [|exact H]. intros [->|I]; [apply N; now left|auto].
  - intros [(p & q & -> & N)|(N & p & q & -> & N')].
    + exists p, (q ++ b). split; [now rewrite <- app_assoc|exact N].
    + exists (a ++ p), q. split; [now rewrite app_assoc|]. rewrite in_app_iff. tauto.
Qed.
Lemma needed_nil v : ~ needed v [].
Proof. intros (p & q & E & _). destruct p; discriminate. Qed.
Lemma needed_reads v l : needed v (map Read l) <-> In v l.
Proof.
  split.
  - intros (p & q & E & _). assert (In (Read v) (map Read l)) as I by (rewrite E; apply in_app_iff; simpl; auto).
    apply in_map_iff in I as (x & Ex & I). injection Ex as ->. exact I.
  - intros I. apply in_split in I as (a & b & ->). exists (map Read a), (map Read b). split; [now rewrite map_app|].
    intros I. apply in_map_iff in I as (x & Ex & _). discriminate.
Qed.
Lemma needed_writes v l : ~ needed v (map Write l).
Proof.
  intros (p & q & E & _). assert (In (Read v) (map Write l)) as I by (rewrite E; apply in_app_iff; simpl; auto).
  apply in_map_iff in I as (x & Ex & _). discriminate.
Qed.
Lemma no_write_reads v l : ~ In (Write v) (map Read l).
Proof. intros I. apply in_map_iff in I as (x & Ex & _). discriminate. Qed.
Lemma in_writes v l : In (Write v) (map Write l) <-> In v l.
Proof. rewrite in_map_iff. split; [intros (x & E & I); injection E as ->; exact I|intros I; eauto]. Qed.
Lemma needed_enter p sb v rest : needed v (enter_events p sb ++ rest) <->
  In v (phi_arguments p sb) \/ (~ In v (phi_results sb) /\ needed v (body_events sb ++ rest)).
Proof.
  unfold enter_events. rewrite <- !app_assoc, needed_app, needed_reads, needed_app, in_writes.
  pose proof (no_write_reads v (phi_arguments p sb)). pose proof (needed_writes v (phi_results sb)). tauto.
Qed.

(* --- the sets of one block --- *)
Definition body_ev (l : list linstr) : list event := flat_map (fun i => map Read (li_ins i) ++ map Write (li_outs i)) l.
Lemma in_body_writes v l : In (Write v) (body_ev l) <-> exists i, In i l /\ In v (li_outs i).
Proof.
  unfold body_ev. rewrite in_flat_map. split; intros (i & I & H); exists i; (split; [exact I|]).
  - apply in_app_iff in H as [H|H]; [destruct (no_write_reads _ _ H)|now apply in_writes].
  - apply in_app_iff. right. now apply in_writes.
Qed.
Lemma add_phis l : Forall (fun i => is_phi i = true) l -> forall s, let s' := fold_left add_instr l s in
  s_defs s' = s_defs s /\ s_upward s' = s_upward s /\ forall x, In x (s_phi_defs s') <-> In x (s_phi_defs s) \/ In x (flat_map li_outs l).
Proof.
  induction 1 as [|i l Hi _ IH]; intros s; cbv zeta; cbn [fold_left flat_map]; [simpl; tauto|].
  destruct (IH (add_instr s i)) as (H1 & H2 & H3). unfold add_instr in *. rewrite Hi in *. simpl in H1, H2, H3. split; [exact H1|split; [exact H2|]].
  intros x. rewrite H3, union_In, in_app_iff. tauto.
Qed.
Lemma add_body l : Forall (fun i => is_phi i = false) l -> forall s, let s' := fold_left add_instr l s in
  s_phi_defs s' = s_phi_defs s
  /\ (forall x, In x (s_defs s') <-> In x (s_defs s) \/ In (Write x) (body_ev l))
  /\ (forall x, In x (s_upward s') <-> In x (s_upward s) \/ (is_const x = false /\ ~ In x (s_defs s) /\ ~ In x (s_phi_defs s) /\ needed x (body_ev l))).
Proof.
  induction 1 as [|i l Hi _ IH]; intros s; cbv zeta; cbn [fold_left].
  - split; [reflexivity|]. split; intros x; [simpl; tauto|]. pose proof (needed_nil x). simpl. tauto.
  - destruct (IH (add_instr s i)) as (H1 & H2 & H3). unfold add_instr in *. rewrite Hi in *. simpl in H1, H2, H3. split; [exact H1|].
    split; intros x.
    + rewrite H2, union_In. cbn [body_ev flat_map]. rewrite in_app_iff, in_app_iff, in_writes. pose proof (no_write_reads x (li_ins i)). tauto.
    + rewrite H3, !union_In, filter_In, andb_true_iff, !negb_true_iff, mem_false, union_In. cbn [body_ev flat_map].
      rewrite needed_app, needed_app, needed_reads, in_app_iff, in_writes. change (flat_map _ l) with (body_ev l).
      pose proof (no_write_reads x (li_ins i)). pose proof (needed_writes x (li_outs i)). destruct (in_dec string_dec x (li_ins i)); tauto.
Qed.
Lemma filter_all_true {A} (f : A -> bool) l : Forall (fun x => f x = true) (filter f l).
Proof. apply Forall_forall. intros x I. apply filter_In in I. tauto. Qed.
Lemma block_sets b : lb_instrs b = phi_instrs b ++ body_instrs b -> let s := ssa_liveness_definitions (lb_instrs b) in
  (forall x, In x (s_phi_defs s) <-> In x (phi_results b))
  /\ (forall x, In x (s_defs s) <-> In (Write x) (body_events b))
  /\ (forall x, In x (s_upward s) <-> is_const x = false /\ ~ In x (phi_results b) /\ needed x (body_events b)).
Proof.
  intros E. cbv zeta. replace (ssa_liveness_definitions (lb_instrs b)) with (ssa_liveness_definitions (phi_instrs b ++ body_instrs b)) by (now rewrite <- E).
  unfold ssa_liveness_definitions. rewrite fold_left_app.
  assert (Fp : Forall (fun i => is_phi i = true) (phi_instrs b)) by apply filter_all_true.
  assert (Fb : Forall (fun i => is_phi i = false) (body_instrs b)).
  { apply Forall_forall. intros i I. apply filter_In in I as (_ & I). now apply negb_true_iff. }
  match goal with |- context [fold_left add_instr (phi_instrs b) ?z] => destruct (add_phis _ Fp z) as (P1 & P2 & P3);
    set (s1 := fold_left add_instr (phi_instrs b) z) in * end.
  destruct (add_body _ Fb s1) as (B1 & B2 & B3). cbn [s_defs s_upward s_phi_defs] in *. split; [|split]; intros x.
  - rewrite B1, P3. simpl. unfold phi_results. tauto.
  - rewrite B2, P1. unfold body_events. change (flat_map _ (body_instrs b)) with (body_ev (body_instrs b)). simpl. tauto.
  - rewrite B3, P1, P2, P3. unfold phi_results, body_events. change (flat_map (fun i => map Read _ ++ _) (body_instrs b)) with (body_ev (body_instrs b)). simpl. tauto.
Qed.

Lemma index_of_nth p : forall l k, index_of p l = Some k -> nth_error l k = Some p.
Proof.
  induction l as [|y l IH]; intros k; simpl; [discriminate|]. destruct (String.eqb_spec y p) as [->|N]; [intros H; injection H as <-; reflexivity|].
  destruct (index_of p l) as [k'|]; [|discriminate]. intros H; injection H as <-. simpl. now apply IH.
Qed.
Lemma index_of_some p l : In p l -> exists k, index_of p l = Some k.
Proof.
  induction l as [|y l IH]; [intros []|]. simpl. destruct (String.eqb_spec y p) as [->|N]; [eauto|].
  intros [->|I]; [contradiction|]. destruct (IH I) as (k & ->). simpl. eauto.
Qed.
Lemma combine_pick (p : string) : forall (es ins : list string) k a, NoDup es -> nth_error es k = Some p -> nth_error ins k = Some a ->
  map snd (filter (fun ea => String.eqb (fst ea) p) (combine es ins)) = [a].
Proof.
  induction es as [|e es IH]; intros [|x ins] [|k] a N E1 E2; try discriminate; cbn [combine filter fst]; inversion N as [|? ? N1 N2]; subst; simpl in E1, E2.
  - injection E1 as ->. injection E2 as ->. rewrite String.eqb_refl. cbn [map snd]. f_equal.
    assert (filter (fun ea : string * string => String.eqb (fst ea) p) (combine es ins) = []) as ->; [|reflexivity].
    destruct (filter _ (combine es ins)) as [|[e' y] l] eqn:F; [reflexivity|]. exfalso.
    assert (In (e', y) (filter (fun ea : string * string => String.eqb (fst ea) p) (combine es ins))) as I by (rewrite F; now left).
    apply filter_In in I as (I & Ee). apply String.eqb_eq in Ee. simpl in Ee. subst e'. apply in_combine_l in I. auto.
  - destruct (String.eqb_spec e p) as [->|]; [|now apply IH with k]. exfalso. apply N1. eapply nth_error_In; eauto.
Qed.
Lemma phi_loop_spec p es k : NoDup es -> nth_error es k = Some p -> forall l rest uses defs,
  Forall (fun i => is_phi i = true) l -> Forall (fun i => is_phi i = false) rest -> (forall i, In i l -> length (li_ins i) = length es) ->
  exists u d, phi_loop k (l ++ rest) uses defs = Ok (u, d)
  /\ (forall x, In x u <-> In x uses \/ (is_const x = false /\ In x (flat_map (fun i => map snd (filter (fun ea => String.eqb (fst ea) p) (combine es (li_ins i)))) l)))
  /\ (forall x, In x d <-> In x defs \/ In x (flat_map li_outs l)).
Proof.
  intros N Ek. induction l as [|i l IH]; intros rest uses defs Fl Fr Len.
  - exists uses, defs. split; [|simpl; tauto]. cbn [app]. destruct rest as [|r rest]; [reflexivity|]. cbn [phi_loop]. inversion Fr as [|? ? E]; subst. now rewrite E.
  - inversion Fl as [|? ? Ei Fl']; subst. cbn [app phi_loop]. rewrite Ei.
    assert (exists a, nth_error (li_ins i) k = Some a) as (a & Ea).
    { destruct (nth_error (li_ins i) k) eqn:F; [eauto|]. apply nth_error_None in F. rewrite (Len i (or_introl eq_refl)) in F.
      assert (k < length es) by (apply nth_error_Some; congruence). lia. }
    rewrite Ea. cbn [of_option bind].
    destruct (IH rest (if is_const a then uses else union uses [a]) (union defs (li_outs i)) Fl' Fr (fun j I => Len j (or_intror I))) as (u & d & -> & Hu & Hd).
    exists u, d. split; [reflexivity|]. split; intros x.
    + rewrite Hu. cbn [flat_map]. rewrite (combine_pick p es (li_ins i) k a N Ek Ea), in_app_iff. simpl.
      destruct (is_const a) eqn:Ca; [|rewrite union_In; simpl]; intuition congruence.
    + rewrite Hd, union_In. cbn [flat_map]. rewrite in_app_iff. tauto.
Qed.

(** The facts about the sets collected for block [b]. *)
Record info_ok (g : blocks) (b : string) (bb : lblock) (i : binfo) : Prop := {
  io_preds : i_preds i = lb_preds bb;
  io_phi_defs : forall x, In x (s_phi_defs (i_sets i)) <-> In x (phi_results bb);
  io_defs : forall x, In x (s_defs (i_sets i)) <-> In (Write x) (body_events bb);
  io_upward : forall x, In x (s_upward (i_sets i)) <-> is_const x = false /\ ~ In x (phi_results bb) /\ needed x (body_events bb);
  io_phi_uses : forall x, In x (i_phi_uses i) <-> is_const x = false /\ exists s sb, In s (lb_succs bb) /\ lookup s g = Some sb /\ In x (phi_arguments b sb);
  io_pred_phi_defs : forall x, In x (i_pred_phi_defs i) <-> exists s sb, In s (lb_succs bb) /\ lookup s g = Some sb /\ In x (phi_results sb)
}.
Lemma block_info_ok g b bb : ssa_graph g -> lookup b g = Some bb -> exists i, block_info g b bb = Ok i /\ info_ok g b bb i.
Proof.
  intros W Lb. unfold block_info.
  match goal with |- context [for_each ?f _ _] => set (step := f) end.
  assert (G : forall ss ud, incl ss (lb_succs bb) -> exists ud', for_each step ss ud = Ok ud'
     /\ (forall x, In x (fst ud') <-> In x (fst ud) \/ (is_const x = false /\ exists s sb, In s ss /\ lookup s g = Some sb /\ In x (phi_arguments b sb)))
     /\ (forall x, In x (snd ud') <-> In x (snd ud) \/ exists s sb, In s ss /\ lookup s g = Some sb /\ In x (phi_results sb))).
  { induction ss as [|s ss IH]; intros ud Is.
    - exists ud. split; [reflexivity|]. split; intros x; split; auto; intros [H|H]; auto; [destruct H as (_ & s & sb & [] & _)|destruct H as (s & sb & [] & _)].
    - destruct (sg_succ g W b bb s Lb (Is s (or_introl eq_refl))) as (sb & Ls & Ip).
      assert (exists u d, step ud s = Ok (u, d) /\ (forall x, In x u <-> In x (fst ud) \/ (is_const x = false /\ In x (phi_arguments b sb)))
                 /\ (forall x, In x d <-> In x (snd ud) \/ In x (phi_results sb))) as (u & d & Es & Hu & Hd).
      { unfold step. rewrite Ls. cbn [of_option bind]. destruct (sg_entries g W s sb Ls) as [(E1 & E2)|(N & Ie & Len)].
        - rewrite E1. exists (fst ud), (snd ud). split; [now destruct ud|]. unfold phi_arguments, phi_results. rewrite E2. simpl. tauto.
        - destruct (index_of_some b (lb_entries sb) (Ie b Ip)) as (k & Ek). pose proof (index_of_nth _ _ _ Ek) as Nk.
          destruct (phi_loop_spec b (lb_entries sb) k N Nk (phi_instrs sb) (body_instrs sb) [] []) as (u & d & E & Hu & Hd).
          + apply filter_all_true.
          + apply Forall_forall. intros i I. apply filter_In in I as (_ & I). now apply negb_true_iff.
          + exact Len.
          + rewrite <- (sg_phis g W s sb Ls) in E. destruct (lb_entries sb) as [|e es] eqn:Ees; [destruct k; discriminate|].
            unfold block_id_to_phi_uses. rewrite Ek. cbn [of_option bind]. rewrite E. cbn [bind fst snd]. do 2 eexists. split; [reflexivity|].
            split; intros x; rewrite union_In; [rewrite Hu|rewrite Hd]; unfold phi_arguments, phi_results; rewrite ?Ees; simpl; tauto. }
      cbn [for_each]. rewrite Es. cbn [bind]. destruct (IH (u, d) (fun x I => Is x (or_intror I))) as (ud' & -> & Hu' & Hd').
      exists ud'. split; [reflexivity|]. cbn [fst snd] in *. split; intros x.
      + rewrite Hu', Hu. split.
        * intros [[H|(C & H)]|(C & s' & sb' & I & L & H)]; [now left| |].
          -- right. split; [exact C|]. exists s, sb. split; [now left|auto].
          -- right. split; [exact C|]. exists s', sb'. split; [now right|auto].
        * intros [H|(C & s' & sb' & [<-|I] & L & H)]; [auto| |].
          -- left. right. rewrite Ls in L. injection L as <-. auto.
          -- right. split; [exact C|]. eauto.
      + rewrite Hd', Hd. split.
        * intros [[H|H]|(s' & sb' & I & L & H)]; [now left| |].
          -- right. exists s, sb. split; [now left|auto].
          -- right. exists s', sb'. split; [now right|auto].
        * intros [H|(s' & sb' & [<-|I] & L & H)]; [auto| |].
          -- left. right. rewrite Ls in L. injection L as <-. auto.
          -- right. eauto. }
  destruct (G (lb_succs bb) ([], []) (incl_refl _)) as (ud & -> & Hu & Hd). cbn [bind]. eexists. split; [reflexivity|].
  destruct (block_sets bb (sg_phis g W b bb Lb)) as (S1 & S2 & S3). cbv zeta in *. constructor; cbn [i_preds i_sets i_phi_uses i_pred_phi_defs]; auto.
  - intros x. rewrite Hu. simpl. tauto.
  - intros x. rewrite Hd. simpl. tauto.
Qed.
Lemma construct_ok g : ssa_graph g -> exists vs, construct_analysis_info g = Ok vs
  /\ (forall b, lookup b vs <> None <-> lookup b g <> None)
  /\ (forall b bb, lookup b g = Some bb -> exists i, lookup b vs = Some i /\ info_ok g b bb i).
Proof.
  intros W. unfold construct_analysis_info.
  match goal with |- context [map_result ?f _] => set (step := f) end.
  assert (D : forall b bb, In (b, bb) g -> exists i, step (b, bb) = Ok (b, i) /\ info_ok g b bb i).
  { intros b bb I. pose proof (lookup_NoDup _ _ _ (sg_keys g W) I) as L. destruct (block_info_ok g b bb W L) as (i & E & H).
    exists i. unfold step. cbn [fst snd]. rewrite E. cbn [bind]. auto. }
  destruct (map_result_exists step g) as (vs & E). { intros [b bb] I. destruct (D b bb I) as (i & -> & _). eauto. }
  exists vs. split; [exact E|]. destruct (map_result_dict step) with (d := g) (d' := vs) as (K & H); [|exact E|].
  { intros [b bb] r. unfold step. cbn [fst snd]. destruct (block_info g b bb); cbn [bind]; [|discriminate]. intros Q; injection Q as <-. reflexivity. }
  split.
  - intros b. rewrite (lookup_None b vs), (lookup_None b g), K. tauto.
  - intros b bb L. specialize (H b). rewrite L in H. destruct H as (i & S1 & S2). exists i. split; [exact S2|].
    destruct (D b bb (lookup_In _ _ _ L)) as (i' & S3 & H3). rewrite S1 in S3. injection S3 as <-. exact H3.
Qed.
