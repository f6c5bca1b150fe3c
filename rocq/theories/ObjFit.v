(** What the passes after the combination of blocks need still holds after it. *)
From Coq Require Import Relations.
From Verif Require Import Base Lexical UtilModel UtilProps UnifyProps LiveModel CfgModel CfgSpec CfgProps CombineProps MergePassProps RemoveProps JumpModel JumpSpec CombineModel ObjCombineSpec ObjSem ObjSim ObjSplit ObjErase ObjCombine.
Open Scope string_scope. Open Scope list_scope.

Section Fit.
Variables (PI : linstr -> Prop) (PC : string -> Prop) (returning PS : string -> Prop).
Record fit (g : clist) : Prop := {
  f_links : forall x b, lookup x (cl_blocks g) = Some b -> ~ In x (successors b);
  f_exits : forall x b, lookup x (cl_blocks g) = Some b -> exit_ok b;
  f_phis : forall x b, lookup x (cl_blocks g) = Some b -> phis_first (cb_instrs b);
  f_split : forall x b i, lookup x (cl_blocks g) = Some b -> cb_split b = Some i -> PS (li_op i) /\ exists pre, cb_instrs b = pre ++ [i];
  f_leave : forall x b pre i post, lookup x (cl_blocks g) = Some b -> cb_instrs b = pre ++ i :: post -> In (li_op i) leaving ->
    post = [] /\ ~ In (cb_type b) ["unconditional"; "conditional"] /\ (li_op i = "functionReturn" -> cb_type b = "FunctionReturn");
  f_stay : forall x b i, lookup x (cl_blocks g) = Some b -> In i (cb_instrs b) -> In (li_op i) leaving -> successors b = [];
  f_instrs : forall x b i, lookup x (cl_blocks g) = Some b -> In i (cb_instrs b) -> PI i;
  f_conds : forall x b v, lookup x (cl_blocks g) = Some b -> cb_cond b = Some v -> PC v;
  f_last : forall x b pre i, lookup x (cl_blocks g) = Some b -> cb_instrs b = pre ++ [i] -> returning (li_op i) -> ~ (cb_type b = "mainExit" \/ successors b = []);
  f_after : forall x b pre i y, lookup x (cl_blocks g) = Some b -> cb_instrs b = pre ++ [i] -> returning (li_op i) -> edge g x y -> ~ runs_out g y;
  f_reach : forall s x, cl_start g = Some s -> In x (map fst (cl_blocks g)) -> reachable g s x \/ set_apart g x
}.

Lemma last_app {A} (l1 l2 pre : list A) i : l1 ++ l2 = pre ++ [i] -> l2 = [] /\ l1 = pre ++ [i] \/ exists q, l2 = q ++ [i].
Proof.
  intros Q. destruct (snoc_cases l2) as [->|(q & x & ->)]; [left; rewrite app_nil_r in Q; auto|]. right. rewrite app_assoc in Q. apply app_inj_tail in Q as (_ & ->). eauto.
Qed.

Lemma merge_fit g a b ba bb g' : consistent g -> MergePassProps.tidy g -> joins_have_phis g -> mergeable g a b ba bb -> merge_blocks a b g = Ok g' -> fit g -> fit g'.
Proof.
  intros C T JP M E F. pose proof (merge_departures g a b ba bb g') as D. pose proof (mergeable_lone g a b ba bb C T M) as LO. destruct (merge_lookup g a b ba bb C M) as (g2 & E2 & KN & LG & ST & TE & RE). rewrite E in E2. injection E2 as <-.
  pose proof M as [LA LB N SA PB NL ND NS].
  assert (NP : forall i, In i (cb_instrs bb) -> li_op i <> "PhiFunction") by exact (JP b bb LB LO).
  assert (SB : In b (successors ba)) by now apply SA.
  assert (ED : forall u w, edge g' u w <-> (u = a /\ edge g b w) \/ (u <> a /\ u <> b /\ edge g u w)).
  { intros u w. rewrite !edge_departures, (D u w C M E). destruct (String.eqb_spec u a); [intuition; subst; congruence|]. destruct (String.eqb_spec u b); [|intuition]. split; [lia|intuition]. }
  assert (EAB : edge g a b).
  { unfold successors in SB. exists ba. split; [exact LA|]. apply in_app_iff in SB as [I|I]; [left|right]; [destruct (cb_jump_to ba)|destruct (cb_falls_to ba)]; cbn in I; try contradiction; destruct I as [->|[]]; reflexivity. }
  assert (SUCC : forall u w bu, lookup u (cl_blocks g) = Some bu -> edge g u w -> In w (successors bu)).
  { intros u w bu L (b' & L' & TO). rewrite L in L'. injection L' as <-. unfold successors. apply in_app_iff. destruct TO as [-> | ->]; [left|right]; now left. }
  assert (PRED : forall u, edge g u b -> u = a).
  { intros u H. apply edge_departures in H. rewrite <- (c_links g C) in H. unfold arrivals in H. rewrite LB in H. apply count_In in H. auto. }
  assert (BL : forall x bx, lookup x (cl_blocks g') = Some bx -> (x = a /\ bx = merged ba bb) \/ (x <> a /\ x <> b /\ exists b0, lookup x (cl_blocks g) = Some b0 /\ bx = relist b a b0)).
  { intros x bx L. rewrite LG in L. destruct (String.eqb_spec x a) as [->|]; [left; split; [reflexivity|congruence]|]. destruct (String.eqb_spec x b); [discriminate|]. right. destruct (lookup x (cl_blocks g)) as [b0|]; [|discriminate].
    cbn in L. injection L as <-. eauto. }
  assert (LB' : lookup b (cl_blocks g') = None) by (rewrite LG; destruct (String.eqb_spec b a); [congruence|]; now rewrite String.eqb_refl).
  assert (OUT : forall y, runs_out g' y -> runs_out g y).
  { intros y H. induction H as [y bY L I TY|y bY z L I EZ _ IH].
    - destruct (BL y bY L) as [(-> & ->)|(N1 & N2 & b0 & L0 & ->)].
      + change (cb_instrs ba ++ cb_instrs bb = []) in I. apply app_eq_nil in I as (I1 & I2). eapply out_later; [exact LA|exact I1|exact EAB|]. eapply out_here; [exact LB|exact I2|exact TY].
      + eapply out_here; [exact L0|exact I|exact TY].
    - destruct (BL y bY L) as [(-> & ->)|(N1 & N2 & b0 & L0 & ->)].
      + change (cb_instrs ba ++ cb_instrs bb = []) in I. apply app_eq_nil in I as (I1 & I2). apply ED in EZ as [(_ & EZ)|(X & _)]; [|congruence]. eapply out_later; [exact LA|exact I1|exact EAB|]. eapply out_later; [exact LB|exact I2|exact EZ|exact IH].
      + apply ED in EZ as [(X & _)|(_ & _ & EZ)]; [congruence|]. eapply out_later; [exact L0|exact I|exact EZ|exact IH]. }
  split.
  - intros x bx L. destruct (BL x bx L) as [(-> & ->)|(N1 & N2 & b0 & L0 & ->)]; [exact NL|exact (f_links g F x b0 L0)].
  - intros x bx L. destruct (BL x bx L) as [(-> & ->)|(N1 & N2 & b0 & L0 & ->)]; [|exact (f_exits g F x b0 L0)].
    destruct (f_exits g F b bb LB) as (A1 & A2 & A3 & A4). split; [exact A1|]. split; [exact A2|]. split; [|exact A4]. intros TY. destruct (A3 TY) as (S0 & pre & vs & Q). split; [exact S0|].
    exists (cb_instrs ba ++ pre), vs. change (cb_instrs ba ++ cb_instrs bb = (cb_instrs ba ++ pre) ++ [{| li_op := "functionReturn"; li_ins := vs; li_outs := []; li_lits := None |}]). rewrite Q. apply app_assoc.
  - intros x bx L. destruct (BL x bx L) as [(-> & ->)|(N1 & N2 & b0 & L0 & ->)]; [|exact (f_phis g F x b0 L0)].
    destruct (f_phis g F a ba LA) as (ps & os & Q & P1 & P2). exists ps, (os ++ cb_instrs bb). split; [change (cb_instrs ba ++ cb_instrs bb = ps ++ os ++ cb_instrs bb); now rewrite Q, app_assoc|].
    split; [exact P1|]. intros i I. apply in_app_iff in I as [I|I]; auto.
  - intros x bx i L Q. destruct (BL x bx L) as [(-> & ->)|(N1 & N2 & b0 & L0 & ->)]; [discriminate|exact (f_split g F x b0 i L0 Q)].
  - intros x bx pre i post L Q IL. destruct (BL x bx L) as [(-> & ->)|(N1 & N2 & b0 & L0 & ->)]; [|exact (f_leave g F x b0 pre i post L0 Q IL)].
    change (cb_instrs ba ++ cb_instrs bb = pre ++ i :: post) in Q. assert (NA : ~ In i (cb_instrs ba)).
    { intros I. rewrite (f_stay g F a ba i LA I IL) in SB. exact SB. }
    assert (exists pre2, cb_instrs bb = pre2 ++ i :: post) as (pre2 & Q2).
    { revert NA Q. generalize (cb_instrs ba). clear. intros l. revert pre. induction l as [|x l IH]; intros pre NI Q; [exists pre; exact Q|]. destruct pre as [|y pre].
      - cbn in Q. injection Q as -> Q. elim NI. now left.
      - cbn in Q. injection Q as -> Q. apply (IH pre); [|exact Q]. intros H. apply NI. now right. }
    exact (f_leave g F b bb pre2 i post LB Q2 IL).
  - intros x bx i L I IL. destruct (BL x bx L) as [(-> & ->)|(N1 & N2 & b0 & L0 & ->)]; [|exact (f_stay g F x b0 i L0 I IL)].
    change (In i (cb_instrs ba ++ cb_instrs bb)) in I. change (successors bb = []). apply in_app_iff in I as [I|I]; [rewrite (f_stay g F a ba i LA I IL) in SB; destruct SB|exact (f_stay g F b bb i LB I IL)].
  - intros x bx i L I. destruct (BL x bx L) as [(-> & ->)|(N1 & N2 & b0 & L0 & ->)]; [|exact (f_instrs g F x b0 i L0 I)].
    change (In i (cb_instrs ba ++ cb_instrs bb)) in I. apply in_app_iff in I as [I|I]; [exact (f_instrs g F a ba i LA I)|exact (f_instrs g F b bb i LB I)].
  - intros x bx v L Q. destruct (BL x bx L) as [(-> & ->)|(N1 & N2 & b0 & L0 & ->)]; [exact (f_conds g F b bb v LB Q)|exact (f_conds g F x b0 v L0 Q)].
  - intros x bx pre i L Q R. destruct (BL x bx L) as [(-> & ->)|(N1 & N2 & b0 & L0 & ->)]; [|exact (f_last g F x b0 pre i L0 Q R)].
    change (cb_instrs ba ++ cb_instrs bb = pre ++ [i]) in Q. change (~ (cb_type bb = "mainExit" \/ successors bb = [])). destruct (last_app _ _ _ _ Q) as [(Q0 & Q1)|(q & Q1)].
    + intros H. apply (f_after g F a ba pre i b LA Q1 R EAB). eapply out_here; eauto.
    + exact (f_last g F b bb q i LB Q1 R).
  - intros x bx pre i y L Q R EY H. apply OUT in H. destruct (BL x bx L) as [(-> & ->)|(N1 & N2 & b0 & L0 & ->)].
    + change (cb_instrs ba ++ cb_instrs bb = pre ++ [i]) in Q. apply ED in EY as [(_ & EY)|(X & _)]; [|congruence]. destruct (last_app _ _ _ _ Q) as [(Q0 & Q1)|(q & Q1)].
      * apply (f_after g F a ba pre i b LA Q1 R EAB). eapply out_later; eauto.
      * exact (f_after g F b bb q i y LB Q1 R EY H).
    + apply ED in EY as [(X & _)|(_ & _ & EY)]; [congruence|]. exact (f_after g F x b0 pre i y L0 Q R EY H).
  - intros s x S I. rewrite ST in S. assert (NB : s <> b) by congruence.
    assert (RE' : forall u w, reachable g u w -> u <> b -> reachable g' u (if String.eqb w b then a else w)).
    { intros u w H. apply clos_rt_rtn1 in H. induction H as [|v w EV H IH]; intros NU.
      - destruct (String.eqb_spec u b); [contradiction|apply rt_refl].
      - specialize (IH NU). destruct (String.eqb_spec w b) as [->|NW].
        + assert (v = a) by auto. subst v. destruct (String.eqb_spec a b); [congruence|exact IH].
        + destruct (String.eqb_spec v b) as [->|NV].
          * eapply rt_trans; [exact IH|]. apply rt_step, ED. auto.
          * eapply rt_trans; [exact IH|]. apply rt_step, ED. right. split; [|auto]. intros ->. apply NW. apply SA. eapply SUCC; eauto. }
    assert (XB : x <> b). { intros ->. apply key_lookup in I as (? & I). congruence. }
    assert (XI : In x (map fst (cl_blocks g))).
    { apply key_lookup in I as (bx & L). destruct (BL x bx L) as [(-> & _)|(_ & _ & b0 & L0 & _)]; eapply lookup_In_key; eauto. }
    destruct (f_reach g F s x S XI) as [R|(bx & LX & I0 & S0)].
    + left. pose proof (RE' s x R NB) as Q. destruct (String.eqb_spec x b); [contradiction|exact Q].
    + right. assert (XA : x <> a) by (intros ->; rewrite LA in LX; injection LX as <-; rewrite S0 in SB; exact SB). exists (relist b a bx). split; [|split; [exact I0|exact S0]]. rewrite LG, LX.
      destruct (String.eqb_spec x a); [contradiction|]. destruct (String.eqb_spec x b); [contradiction|reflexivity].
Qed.
Lemma merges_fit g g' : merges g g' -> joins_have_phis g -> fit g -> fit g' /\ joins_have_phis g'.
Proof.
  intros MS JP F. induction MS as [|a b ba bb g1 g2 _ (F1 & J1) C T M CN E]; [auto|]. split; [eapply merge_fit; eauto|eapply merge_joins; eauto].
Qed.
Lemma merges_names g g' : merges g g' -> incl (map fst (cl_blocks g')) (map fst (cl_blocks g)).
Proof.
  induction 1 as [|a b ba bb g1 g2 _ IH C T M CN E]; [apply incl_refl|]. intros x I. apply IH. apply key_lookup in I as (bx & L).
  destruct (merge_lookup g1 a b ba bb C M) as (g3 & E3 & _ & LG & _). rewrite E in E3. injection E3 as <-. rewrite LG in L. destruct (String.eqb_spec x a) as [->|]; [eapply lookup_In_key; apply M|].
  destruct (String.eqb x b); [discriminate|]. destruct (lookup x (cl_blocks g1)) eqn:L1; [|discriminate]. eapply lookup_In_key; eauto.
Qed.
(** A component that returns still does, and conversely. *)
Lemma merges_return g g' : merges g g' -> joins_have_phis g -> fit g -> (cl_return g' = [] <-> cl_return g = []).
Proof.
  intros MS JP F. assert (EMP : forall l : list string, l = [] <-> forall x, ~ In x l).
  { intros l. split; [intros -> x []|]. destruct l as [|x l]; [reflexivity|]. intros H. elim (H x). now left. }
  induction MS as [|a b ba bb g1 g2 MS IH C T M CN E]; [reflexivity|]. rewrite <- IH. destruct (merges_fit g g1 MS JP F) as (F1 & _). destruct (merge_lookup g1 a b ba bb C M) as (g3 & E3 & _ & LG & _ & _ & RE). rewrite E in E3. injection E3 as <-.
  rewrite !EMP. pose proof M as [LA LB N SA PB NL ND NS]. assert (NR : cb_type ba <> "FunctionReturn").
  { intros TY. destruct (f_exits g1 F1 a ba LA) as (_ & _ & A3 & _). destruct (A3 TY) as (Q & _). assert (I : In b (successors ba)) by now apply SA. rewrite Q in I. exact I. }
  split; intros H x I.
  - destruct (string_dec x a) as [->|NA].
    + apply (c_return g1 C) in I as (b0 & L0 & [TY|[]]). rewrite LA in L0. injection L0 as <-. now symmetry in TY.
    + destruct (string_dec x b) as [->|NB].
      * apply (c_return g1 C) in I as (b0 & L0 & TY). rewrite LB in L0. injection L0 as <-. apply (H a). apply RE. auto.
      * apply (H x). apply RE. auto.
  - apply RE in I as [(I & _)|(-> & TY)]; [exact (H x I)|]. apply (H b). apply (c_return g1 C). exists bb. auto.
Qed.

(** The blocks set apart are removed. *)
Lemma remove_keys g g' : consistent g -> remove_blocks_block_list g = Ok g' -> NoDup (map fst (cl_blocks g')).
Proof.
  intros C E. unfold remove_blocks_block_list in E. destruct (c_start g C) as (s & S & I). rewrite S in E. cbn [of_option bind] in E.
  assert (NR : forall x, In x (nodes_to_remove g s) -> In x (map fst (cl_blocks g)) /\ ~ reachable g s x).
  { intros x H. unfold nodes_to_remove in H. apply filter_In in H as (H & N). split; [exact H|]. apply negb_true_iff, mem_false in N. intros R. apply N. apply (rounds_exact g s x C I), R. }
  destruct (remove_many (nodes_to_remove g s) g) as (g2 & E2 & _ & _ & ND & _).
  - unfold nodes_to_remove. apply NoDup_filter, (c_keys g C).
  - intros x H. now apply NR.
  - intros s' Q H. rewrite S in Q. injection Q as <-. apply NR in H as (_ & H). apply H, rt_refl.
  - rewrite E in E2. injection E2 as <-. apply ND, (c_keys g C).
Qed.
Lemma removed_fit g : consistent g -> MergePassProps.tidy g -> fit g -> exists g', remove_blocks_block_list g = Ok g' /\ consistent g' /\ MergePassProps.tidy g' /\ fit g'
  /\ incl (map fst (cl_blocks g')) (map fst (cl_blocks g)) /\ (cl_return g' = [] <-> cl_return g = []).
Proof.
  intros C T F. destruct (c_start g C) as (s & S & I). destruct (remove_blocks_reachable g s C S) as (g' & E & S' & LG & TE & RE & _). exists g'. split; [exact E|].
  assert (L1 : forall x b, lookup x (cl_blocks g') = Some b -> lookup x (cl_blocks g) = Some b) by (intros x b L; now apply LG in L).
  assert (NE : forall x y, edge g x y -> reachable g s x).
  { intros x y EX. destruct EX as (b & L & TO). destruct (f_reach g F s x S (lookup_In_key _ _ _ L)) as [R|(b2 & L2 & _ & N)]; [exact R|]. rewrite L in L2. injection L2 as <-. assert (J : In y (successors b)) by (apply in_app_iff; destruct TO as [-> | ->]; [left|right]; now left). rewrite N in J. destruct J. }
  assert (EG : forall x y, edge g' x y <-> edge g x y).
  { intros x y. split; intros EX; [destruct EX as (b & L & TO); exists b; split; [now apply L1|exact TO]|]. pose proof (NE x y EX) as R. destruct EX as (b & L & TO). exists b. split; [apply LG; auto|exact TO]. }
  assert (RG : forall u x, reachable g u x -> reachable g' u x).
  { intros u x R. unfold reachable in *. induction R as [x y EX|x|x y z _ IH1 _ IH2]; [apply rt_step; now apply EG|apply rt_refl|eapply rt_trans; eauto]. }
  assert (OUT : forall y, runs_out g' y -> runs_out g y).
  { intros y H. induction H as [y bY L J TY|y bY z L J EZ _ IH]; [eapply out_here; eauto|eapply out_later; eauto; now apply EG]. }
  assert (C' : consistent g').
  { constructor.
    - exact (remove_keys g g' C E).
    - intros x y. assert (D : departures g' x y = departures g x y).
      { destruct (departures g x y) as [|n] eqn:Q.
        - destruct (departures g' x y) eqn:Q'; [reflexivity|]. assert (EX : edge g' x y) by (apply edge_departures; lia). apply EG, edge_departures in EX. lia.
        - assert (EX : edge g x y) by (apply edge_departures; lia). pose proof (NE x y EX) as R. rewrite <- Q. unfold departures. destruct EX as (b & L & _). rewrite L. now rewrite (proj2 (LG x b) (conj L R)). }
      rewrite D, <- (c_links g C). unfold arrivals. destruct (lookup y (cl_blocks g')) as [b|] eqn:L; [apply L1 in L; now rewrite L|].
      change (0 = arrivals g x y). rewrite (c_links g C). destruct (departures g x y) as [|n] eqn:Q; [reflexivity|]. assert (EX : edge g x y) by (apply edge_departures; lia). exfalso.
      assert (R : reachable g s y) by (eapply rt_trans; [exact (NE x y EX)|apply rt_step; exact EX]). rewrite <- (c_links g C) in Q. unfold arrivals in Q. destruct (lookup y (cl_blocks g)) as [b|] eqn:Ly; [|discriminate]. pose proof (proj2 (LG y b) (conj Ly R)). congruence.
    - intros x b L. apply L1 in L. exact (c_entries g C x b L).
    - exists s. split; [exact S'|]. apply key_lookup in I as (b & L). eapply lookup_In_key. apply LG. split; [exact L|apply rt_refl].
    - exact TE.
    - exact RE. }
  split; [exact C'|]. split; [split; intros x b L; apply L1 in L; [exact (t_targets g T x b L)|exact (t_conds g T x b L)]|]. split; [|split].
  - split.
    + intros x b L. apply L1 in L. exact (f_links g F x b L).
    + intros x b L. apply L1 in L. exact (f_exits g F x b L).
    + intros x b L. apply L1 in L. exact (f_phis g F x b L).
    + intros x b i L. apply L1 in L. exact (f_split g F x b i L).
    + intros x b pre i post L. apply L1 in L. exact (f_leave g F x b pre i post L).
    + intros x b i L. apply L1 in L. exact (f_stay g F x b i L).
    + intros x b i L. apply L1 in L. exact (f_instrs g F x b i L).
    + intros x b v L. apply L1 in L. exact (f_conds g F x b v L).
    + intros x b pre i L. apply L1 in L. exact (f_last g F x b pre i L).
    + intros x b pre i y L Q R EX H. apply L1 in L. apply EG in EX. exact (f_after g F x b pre i y L Q R EX (OUT y H)).
    + intros s2 x Q J. rewrite S' in Q. injection Q as <-. left. apply key_lookup in J as (b & L). apply LG in L as (_ & R). now apply RG.
  - intros x J. apply key_lookup in J as (b & L). apply L1 in L. eapply lookup_In_key; eauto.
  - assert (EMP : forall l : list string, l = [] <-> forall x, ~ In x l).
    { intros l. split; [intros -> x []|]. destruct l as [|x l]; [reflexivity|]. intros H. elim (H x). now left. }
    rewrite !EMP. split; intros H x J.
    + apply (H x). apply RE. apply (c_return g C) in J as (b & L & TY). exists b. split; [|exact TY]. apply LG. split; [exact L|]. destruct (f_reach g F s x S (lookup_In_key _ _ _ L)) as [R|(b2 & L2 & N & _)]; [exact R|]. rewrite L in L2. injection L2 as <-.
      destruct TY as [TY|[]]. destruct (f_exits g F x b L) as (_ & _ & A & _). destruct (A (eq_sym TY)) as (_ & pre & vs & Q). rewrite N in Q. destruct pre; discriminate.
    + apply (H x). apply (c_return g C). apply RE in J as (b & L & TY). exists b. split; [now apply L1|exact TY].
Qed.
End Fit.
