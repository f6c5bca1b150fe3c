(** C46: the repair of phi functions. *)
From Coq Require Import Lia.
From Verif Require Import Base UtilModel UtilProps UnifyProps CfgProps WebModel WebProps PlaceModel PlaceSpec PhiRepairSpec.
Open Scope string_scope. Open Scope list_scope.

Lemma for_each_app {A S} (f : S -> A -> result S) xs ys s : for_each f (xs ++ ys) s = do s' <- for_each f xs s; for_each f ys s'.
Proof. revert s. induction xs as [|x xs IH]; intros s; [reflexivity|]. cbn. destruct (f s x); [apply IH|reflexivity]. Qed.
Lemma same_code_refl b : same_code b b.
Proof. unfold same_code. tauto. Qed.
Lemma same_code_trans a b c : same_code a b -> same_code b c -> same_code a c.
Proof. unfold same_code. intuition congruence. Qed.
Lemma same_solve b s : same_code b (with_solve b s).
Proof. unfold same_code. cbn. tauto. Qed.
Lemma same_copy b v : same_code b (add_virtual_copy v b).
Proof. unfold same_code. cbn. tauto. Qed.

Lemma set_add_In x s y : In y (set_add x s) <-> y = x \/ In y s.
Proof.
  unfold set_add. destruct (mem x s) eqn:M; [apply mem_In in M; split; [auto|intros [->|?]; auto]|].
  rewrite in_app_iff. cbn. intuition.
Qed.
Lemma in_split_app {A} (l1 : list A) : forall l2 pre x post, l1 ++ l2 = pre ++ x :: post ->
  (exists post', l1 = pre ++ x :: post' /\ post = post' ++ l2) \/ (exists pre', pre = l1 ++ pre' /\ l2 = pre' ++ x :: post).
Proof.
  induction l1 as [|y l1 IH]; intros l2 pre x post E; [right; exists pre; auto|].
  destruct pre as [|z pre]; cbn in E; injection E as -> E; [left; exists l1; auto|].
  destruct (IH _ _ _ _ E) as [(p & -> & ->)|(p & -> & ->)]; [left|right]; exists p; auto.
Qed.

Section Repair.
Variables (bs0 : pblocks) (defs : list (string * string)).

(** The arguments of [v] that have to be visited, in terms of the blocks given. *)
Definition pending (v a : string) : Prop :=
  exists x b args k e be, lookup v defs = Some x /\ lookup x bs0 = Some b /\ lookup v (pb_phis b) = Some args
    /\ nth_error args k = Some a /\ nth_error (pb_entries b) k = Some e /\ lookup e bs0 = Some be /\ In a (pb_unreach be).
Definition takes (v a e : string) : Prop :=
  exists x b args k, lookup v defs = Some x /\ lookup x bs0 = Some b /\ lookup v (pb_phis b) = Some args
    /\ nth_error args k = Some a /\ nth_error (pb_entries b) k = Some e.

(** The blocks with the notes for the variables in [solved]/the pairs in [copied]. *)
Record state (bs : pblocks) (solved : string -> string -> Prop) (copied : string -> string -> Prop) : Prop := {
  st_keys : map fst bs = map fst bs0;
  st_block : forall x b0, lookup x bs0 = Some b0 -> exists b, lookup x bs = Some b /\ same_code b0 b
     /\ (forall v, In v (pb_solve b) <-> solved v x) /\ (forall a, In a (map fst (pb_copies b)) <-> copied a x)
}.

Lemma state_lookup bs S C x b : state bs S C -> lookup x bs = Some b -> exists b0, lookup x bs0 = Some b0 /\ same_code b0 b
  /\ (forall v, In v (pb_solve b) <-> S v x) /\ (forall a, In a (map fst (pb_copies b)) <-> C a x).
Proof.
  intros [K B] L. assert (In x (map fst bs0)) as I by (rewrite <- K; eapply lookup_In_key; eauto).
  apply key_lookup in I as (b0 & L0). destruct (B x b0 L0) as (b' & L' & R). rewrite L in L'. injection L' as <-. eauto.
Qed.
Lemma state_ext bs S C S' C' : (forall v x, S v x <-> S' v x) -> (forall a x, C a x <-> C' a x) -> state bs S C -> state bs S' C'.
Proof.
  intros HS HC [K B]. split; [exact K|]. intros x b0 L. destruct (B x b0 L) as (b & Lb & SC & R1 & R2). exists b.
  split; [exact Lb|]. split; [exact SC|]. split; intros; [rewrite R1; apply HS|rewrite R2; apply HC].
Qed.

Lemma fix_args_spec handled : forall args entries bs todo bs' todo' S C,
  state bs S C -> fix_args args entries handled defs bs todo = Ok (bs', todo') ->
  exists pushed, todo' = pushed ++ todo
    /\ (forall a n, In (a, n) pushed -> lookup a defs = Some n /\ ~ In a handled
         /\ exists k e be, nth_error args k = Some a /\ nth_error entries k = Some e /\ lookup e bs0 = Some be /\ In a (pb_unreach be))
    /\ (forall k a e be, nth_error args k = Some a -> nth_error entries k = Some e -> lookup e bs0 = Some be -> In a (pb_unreach be) -> ~ In a handled -> In a (map fst pushed))
    /\ state bs' S (fun a x => C a x \/ exists k, nth_error args k = Some a /\ nth_error entries k = Some x).
Proof.
  induction args as [|a args IH]; intros entries bs todo bs' todo' S C ST H; cbn [fix_args] in H.
  - injection H as <- <-. exists []. split; [reflexivity|]. split; [intros ? ? []|]. split; [intros [|k]; discriminate|].
    revert ST. apply state_ext; [tauto|]. intros c x. split; [auto|]. intros [?|([|k] & ? & _)]; [assumption|discriminate|discriminate].
  - destruct entries as [|e entries].
    { injection H as <- <-. exists []. split; [reflexivity|]. split; [intros ? ? []|]. split; [intros [|k] ? ? ? _; discriminate|].
      revert ST. apply state_ext; [tauto|]. intros c x. split; [auto|]. intros [?|([|k] & _ & ?)]; [assumption|discriminate|discriminate]. }
    destruct (lookup e bs) as [be|] eqn:Le; cbn [of_option bind] in H; [|discriminate].
    destruct (state_lookup _ _ _ _ _ ST Le) as (be0 & Le0 & SC & R1 & R2).
    assert (ST1 : state (dict_set e (add_virtual_copy a be) bs) S (fun c x => C c x \/ c = a /\ x = e)).
    { destruct ST as [K B]. split.
      - rewrite dict_set_same_keys; [exact K|]. eapply lookup_In_key; eauto.
      - intros x b0 L. rewrite lookup_dict_set. destruct (String.eqb_spec e x) as [<-|N].
        + rewrite Le0 in L. injection L as <-. eexists. split; [reflexivity|]. split; [eapply same_code_trans; [exact SC|apply same_copy]|].
          split; [exact R1|]. intros c. unfold add_virtual_copy, with_copies. cbn [pb_copies]. rewrite dict_set_keys, R2. intuition.
        + destruct (B x b0 L) as (b & Lb & SCb & Rb1 & Rb2). exists b. split; [exact Lb|]. split; [exact SCb|]. split; [exact Rb1|].
          intros c. rewrite Rb2. split; [auto|]. intros [?|(_ & ->)]; [assumption|contradiction]. }
    set (push := mem a (pb_unreach be) && negb (mem a handled)) in *.
    destruct (if push then _ else _) as [todo1|] eqn:Ht in H; cbn [bind] in H; [|discriminate].
    assert (P1 : exists p1, todo1 = p1 ++ todo /\ (forall c n, In (c, n) p1 -> c = a /\ lookup a defs = Some n /\ push = true) /\ (push = true -> In a (map fst p1))).
    { destruct push.
      - destruct (lookup a defs) as [n|] eqn:La; cbn [of_option bind] in Ht; [|discriminate]. injection Ht as <-. exists [(a, n)].
        split; [reflexivity|]. split; [intros c m [E|[]]; injection E as <- <-; auto|intros _; now left].
      - injection Ht as <-. exists []. split; [reflexivity|]. split; [intros ? ? []|discriminate]. }
    destruct P1 as (p1 & -> & P1 & P2).
    assert (Hp : push = true <-> In a (pb_unreach be0) /\ ~ In a handled).
    { unfold push. rewrite andb_true_iff, mem_In, negb_true_iff, mem_false. destruct SC as (_ & _ & _ & _ & _ & _ & _ & _ & _ & _ & _ & U). rewrite U. tauto. }
    destruct (IH _ _ _ _ _ _ _ ST1 H) as (pushed & -> & Q1 & Q2 & ST2). exists (pushed ++ p1). split; [now rewrite app_assoc|]. split; [|split].
    + intros c n I. apply in_app_iff in I as [I|I].
      * destruct (Q1 c n I) as (D & N & k & x & bx & A1 & A2 & A3 & A4). split; [exact D|]. split; [exact N|]. now exists (Datatypes.S k), x, bx.
      * destruct (P1 c n I) as (-> & D & P). apply Hp in P as (P & N). split; [exact D|]. split; [exact N|]. now exists 0, e, be0.
    + intros [|k] c x bx A1 A2 A3 A4 N; cbn [nth_error] in A1, A2.
      * injection A1 as <-. injection A2 as <-. rewrite Le0 in A3. injection A3 as <-. rewrite map_app. apply in_app_iff. right. apply P2, Hp. auto.
      * rewrite map_app. apply in_app_iff. left. eapply Q2; eauto.
    + revert ST2. apply state_ext; [tauto|]. intros c x. split.
      * intros [[?|(-> & ->)]|(k & A1 & A2)]; [auto|right; now exists 0|right; now exists (Datatypes.S k)].
      * intros [?|([|k] & A1 & A2)]; [auto| |right; now exists k]. cbn in A1, A2. injection A1 as <-. injection A2 as <-. auto.
Qed.

Lemma fix_args_todo handled : forall args entries bs todo bs' todo', fix_args args entries handled defs bs todo = Ok (bs', todo') -> exists p, todo' = p ++ todo.
Proof.
  induction args as [|a args IH]; intros entries bs todo bs' todo' H; cbn [fix_args] in H; [injection H as <- <-; now exists []|].
  destruct entries as [|e entries]; [injection H as <- <-; now exists []|]. destruct (of_option (lookup e bs)) as [be|]; cbn [bind] in H; [|discriminate].
  destruct (mem a (pb_unreach be) && negb (mem a handled)).
  - destruct (of_option (lookup a defs)) as [n|]; cbn [bind] in H; [|discriminate]. destruct (IH _ _ _ _ _ H) as (p & ->). exists (p ++ [(a, n)]). now rewrite <- app_assoc.
  - cbn [bind] in H. eauto.
Qed.
Lemma fix_args_fuel handled : forall args entries bs todo e, fix_args args entries handled defs bs todo = Raise e -> e = OtherError.
Proof.
  induction args as [|a args IH]; intros entries bs todo e H; cbn [fix_args] in H; [discriminate|].
  destruct entries as [|x entries]; [discriminate|]. destruct (lookup x bs) as [be|]; cbn [of_option bind] in H; [|congruence].
  destruct (mem a (pb_unreach be) && negb (mem a handled)).
  - destruct (lookup a defs) as [n|]; cbn [of_option bind] in H; [eauto|congruence].
  - cbn [bind] in H. eauto.
Qed.

(** The stack of values to visit: what is pending for a visited value is above it. *)
Record stack_inv (todo : list (string * string)) (handled : list string) : Prop := {
  si_defs : forall v n, In (v, n) todo -> lookup v defs = Some n;
  si_above : forall pre v n post a, todo = pre ++ (v, n) :: post -> In v handled -> pending v a -> In a handled \/ In a (map fst pre);
  si_closed : forall v a, In v handled -> pending v a -> In a handled \/ In a (map fst todo)
}.

Definition wanted (handled : list string) (v x : string) : Prop := In v handled /\ lookup v defs = Some x.
Definition given (handled : list string) (a x : string) : Prop := exists v, In v handled /\ takes v a x.

(** One round. *)
Lemma visit v name todo handled bs b args bs2 todo2 :
  state bs (wanted handled) (given handled) -> stack_inv ((v, name) :: todo) handled -> lookup name bs = Some b -> lookup v (pb_phis b) = Some args ->
  fix_args args (pb_entries b) (v :: handled) defs (dict_set name (with_solve b (set_add v (pb_solve b))) bs) todo = Ok (bs2, todo2) ->
  state bs2 (wanted (v :: handled)) (given (v :: handled)) /\ stack_inv todo2 (v :: handled)
  /\ (In v handled -> todo2 = todo) /\ (forall a n, In (a, n) todo2 -> In (a, n) todo \/ pending v a).
Proof.
  intros ST SI Lb La H. assert (Dv : lookup v defs = Some name) by (apply (si_defs _ _ SI); now left).
  destruct (state_lookup _ _ _ _ _ ST Lb) as (b0 & Lb0 & SC & R1 & R2).
  assert (Eph : pb_phis b = pb_phis b0 /\ pb_entries b = pb_entries b0) by (destruct SC as (_ & E1 & E2 & _); auto).
  destruct Eph as (Eph & Een). rewrite Eph in La. rewrite Een in H.
  assert (ST1 : state (dict_set name (with_solve b (set_add v (pb_solve b))) bs) (wanted (v :: handled)) (given handled)).
  { destruct ST as [K B]. split.
    - rewrite dict_set_same_keys; [exact K|]. eapply lookup_In_key; eauto.
    - intros x b1 L. rewrite lookup_dict_set. destruct (String.eqb_spec name x) as [<-|N].
      + rewrite Lb0 in L. injection L as <-. eexists. split; [reflexivity|]. split; [eapply same_code_trans; [exact SC|apply same_solve]|].
        split; [|exact R2]. intros u. cbn [with_solve pb_solve]. unfold wanted. rewrite set_add_In, R1. unfold wanted. cbn [In].
        split; [intros [E|(I & D)]; [subst; auto|auto]|intros ([<-|I] & D); auto].
      + destruct (B x b1 L) as (bx & Lx & SCx & Rx1 & Rx2). exists bx. split; [exact Lx|]. split; [exact SCx|]. split; [|exact Rx2].
        intros u. rewrite Rx1. unfold wanted. cbn [In]. split; [intros (I & D); auto|]. intros ([<-|I] & D); [congruence|auto]. }
  destruct (fix_args_spec _ _ _ _ _ _ _ _ _ ST1 H) as (pushed & -> & Q1 & Q2 & ST2).
  assert (PV : forall a, pending v a -> In a (v :: handled) \/ In a (map fst pushed)).
  { intros a (x & bx & ax & k & e & be & D & L1 & L2 & N1 & N2 & L3 & U). rewrite Dv in D. injection D as <-. rewrite Lb0 in L1. injection L1 as <-.
    rewrite La in L2. injection L2 as <-. destruct (in_dec string_dec a (v :: handled)) as [I|N]; [now left|right; eapply Q2; eauto]. }
  assert (PQ : forall a n, In (a, n) pushed -> pending v a).
  { intros a n I. destruct (Q1 a n I) as (_ & _ & k & e & be & N1 & N2 & L3 & U). now exists name, b0, args, k, e, be. }
  split; [|split; [|split]].
  - revert ST2. apply state_ext; [tauto|]. intros a x. unfold given. split.
    + intros [(u & I & T)|(k & N1 & N2)]; [exists u; split; [now right|exact T]|]. exists v. split; [now left|]. now exists name, b0, args, k.
    + intros (u & [<-|I] & T); [|left; eauto]. right. destruct T as (y & c & ac & k & D & L1 & L2 & N1 & N2). rewrite Dv in D. injection D as <-.
      rewrite Lb0 in L1. injection L1 as <-. rewrite La in L2. injection L2 as <-. eauto.
  - split.
    + intros u n I. apply in_app_iff in I as [I|I]; [apply (Q1 _ _ I)|]. apply (si_defs _ _ SI). now right.
    + intros pre u n post a E Iu P.
      destruct (in_split_app pushed todo pre (u, n) post E) as [(post' & Ep & Epost)|(pre' & Epre & Et)].
      * (* an element pushed now was not visited *)
        assert (In (u, n) pushed) as I by (rewrite Ep; apply in_app_iff; right; now left). destruct (Q1 _ _ I) as (_ & N & _). contradiction.
      * subst pre. rewrite map_app, in_app_iff. destruct Iu as [<-|Iu]; [destruct (PV a P); tauto|].
        destruct (si_above _ _ SI ((v, name) :: pre') u n post a ltac:(now rewrite Et) Iu P) as [?|[<-|?]]; [left; now right|left; now left|tauto].
    + intros u a [<-|Iu] P; [destruct (PV a P); [auto|right; rewrite map_app, in_app_iff; tauto]|].
      destruct (si_closed _ _ SI u a Iu P) as [?|[<-|?]]; [left; now right|left; now left|right; rewrite map_app, in_app_iff; tauto].
  - intros Iv. destruct pushed as [|(a, n) pushed]; [reflexivity|]. exfalso.
    destruct (Q1 a n ltac:(now left)) as (_ & N & _). apply N. right.
    destruct (si_above _ _ SI [] v name todo a eq_refl Iv (PQ a n ltac:(now left))) as [?|[]]. assumption.
  - intros a n I. apply in_app_iff in I as [I|I]; [right; eauto|now left].
Qed.

Inductive reaches (v : string) : string -> Prop :=
| reaches_refl : reaches v v
| reaches_step u a : reaches v u -> pending u a -> reaches v a.
Lemma reaches_first v a b : pending v a -> reaches a b -> reaches v b.
Proof. intros P R. induction R as [|u c R IH Q]; [eapply reaches_step; [constructor|exact P]|eapply reaches_step; [exact IH|exact Q]]. Qed.

(** The phi functions joined are those of the values visited. *)
Definition joined_ok (handled : list string) (joined : list (string * list string)) : Prop :=
  (forall v, In v handled <-> In v (map fst joined)) /\
  forall v used, In (v, used) joined -> exists x b args, lookup v defs = Some x /\ lookup x bs0 = Some b /\ lookup v (pb_phis b) = Some args
    /\ used = firstn (length (pb_entries b)) args.

Lemma join_snoc joined w phi w' : join_all joined = Ok w -> join_phi w phi = Ok w' -> join_all (joined ++ [phi]) = Ok w'.
Proof. unfold join_all. intros J P. rewrite for_each_app, J. cbn [bind for_each]. rewrite P. reflexivity. Qed.

Lemma loop_spec fuel : forall todo handled bs joined w handled' bs' joined' w',
  state bs (wanted handled) (given handled) -> stack_inv todo handled -> joined_ok handled joined -> join_all joined = Ok w ->
  fix_loop fuel todo handled defs bs joined w = Ok (handled', bs', joined', w') ->
  state bs' (wanted handled') (given handled') /\ stack_inv [] handled' /\ joined_ok handled' joined' /\ join_all joined' = Ok w'
  /\ incl handled handled' /\ (forall v, In v (map fst todo) -> In v handled')
  /\ forall u, In u handled' -> In u handled \/ exists v, In v (map fst todo) /\ reaches v u.
Proof.
  induction fuel as [|fuel IH]; intros todo handled bs joined w handled' bs' joined' w' ST SI JO JA H; cbn [fix_loop] in H.
  - destruct todo as [|(v, name) todo]; [|discriminate]. injection H as <- <- <- <-. repeat (split; [first [assumption|apply incl_refl|intros ? []]|]). auto.
  - destruct todo as [|(v, name) todo]; [injection H as <- <- <- <-; repeat (split; [first [assumption|apply incl_refl|intros ? []]|]); auto|].
    destruct (lookup name bs) as [b|] eqn:Lb; cbn [of_option bind] in H; [|discriminate].
    destruct (lookup v (pb_phis b)) as [args|] eqn:La; cbn [of_option bind] in H; [|discriminate].
    destruct (fix_args _ _ _ _ _ _) as [(bs2, todo2)|] eqn:F; cbn [bind] in H; [|discriminate].
    destruct (join_phi w _) as [w1|] eqn:J; cbn [bind] in H; [|discriminate].
    destruct (visit _ _ _ _ _ _ _ _ _ ST SI Lb La F) as (ST2 & SI2 & _ & PQ).
    assert (Dv : lookup v defs = Some name) by (apply (si_defs _ _ SI); now left).
    destruct (state_lookup _ _ _ _ _ ST Lb) as (b0 & Lb0 & (_ & E1 & E2 & _) & _). rewrite E1 in La. rewrite E2 in J, H.
    assert (JO2 : joined_ok (v :: handled) (joined ++ [(v, firstn (length (pb_entries b0)) args)])).
    { destruct JO as (J1 & J2). split.
      - intros u. rewrite map_app, in_app_iff. cbn. rewrite (J1 u). intuition.
      - intros u used I. apply in_app_iff in I as [I|[E|[]]]; [auto|]. injection E as <- <-. eauto 10. }
    destruct (IH _ _ _ _ _ _ _ _ _ ST2 SI2 JO2 (join_snoc _ _ _ _ JA J) H) as (A1 & A2 & A3 & A4 & A5 & A6 & A7).
    repeat (split; [assumption|]). split; [intros u I; apply A5; now right|]. split.
    + intros u [<-|I]; [apply A5; now left|]. destruct (visit _ _ _ _ _ _ _ _ _ ST SI Lb (eq_trans (f_equal (lookup v) E1) La) F) as (_ & _ & _ & _).
      destruct (in_dec string_dec u (map fst todo2)) as [I2|N2]; [auto|]. exfalso. apply N2. clear - F I.
      destruct (fix_args_todo _ _ _ _ _ _ _ F) as (p & ->). rewrite map_app. apply in_app_iff. now right.
    + intros u I. destruct (A7 u I) as [[<-|K]|(a & K & R)]; [right; exists v; split; [now left|constructor]|now left|].
      apply in_map_iff in K as ((a', n) & <- & K). cbn [fst] in R. right.
      destruct (PQ a' n K) as [K'|P]; [exists a'; split; [right; now apply (in_map fst) in K'|exact R]|].
      exists v. split; [now left|]. eapply reaches_first; eauto.
Qed.

(** The loop ends. *)
Lemma loop_more fuel : forall fuel' todo handled bs joined w, fuel <= fuel' ->
  fix_loop fuel todo handled defs bs joined w <> Raise OutOfFuel ->
  fix_loop fuel' todo handled defs bs joined w = fix_loop fuel todo handled defs bs joined w.
Proof.
  induction fuel as [|fuel IH]; intros fuel' todo handled bs joined w L N; destruct todo as [|(v, name) todo]; cbn [fix_loop] in *.
  - destruct fuel'; reflexivity.
  - now contradiction N.
  - destruct fuel'; reflexivity.
  - destruct fuel' as [|fuel']; [lia|]. cbn [fix_loop].
    destruct (of_option (lookup name bs)) as [b|]; cbn [bind] in *; [|reflexivity].
    destruct (of_option (lookup v (pb_phis b))) as [args|]; cbn [bind] in *; [|reflexivity].
    destruct (fix_args _ _ _ _ _ _) as [(bs2, todo2)|]; cbn [bind] in *; [|reflexivity].
    destruct (join_phi w _) as [w1|]; cbn [bind] in *; [|reflexivity]. apply IH; [lia|exact N].
Qed.

Definition left_over (handled : list string) : nat := length (filter (fun k => negb (mem k handled)) (map fst defs)).
Lemma left_same v handled : In v handled -> left_over (v :: handled) = left_over handled.
Proof.
  intros I. unfold left_over. f_equal. apply filter_ext. intros k. f_equal. apply eq_true_iff_eq. rewrite !mem_In. cbn. split; [intros [<-|?]; auto|auto].
Qed.
Lemma filter_less (P Q : string -> bool) l : (forall x, In x l -> P x = true -> Q x = true) -> length (filter P l) <= length (filter Q l).
Proof.
  induction l as [|x l IH]; intros H; [auto|]. cbn. specialize (IH (fun y I => H y (or_intror I))). specialize (H x (or_introl eq_refl)).
  destruct (P x); [rewrite H by reflexivity; cbn; lia|]. destruct (Q x); cbn; lia.
Qed.
Lemma left_less v handled : ~ In v handled -> In v (map fst defs) -> left_over (v :: handled) < left_over handled.
Proof.
  intros N I. unfold left_over. apply in_split in I as (l1 & l2 & ->). rewrite !filter_app, !app_length. cbn [filter].
  assert (mem v (v :: handled) = true) as -> by (apply mem_In; now left). assert (mem v handled = false) as -> by now apply mem_false. cbn [negb length].
  assert (G : forall l, length (filter (fun k => negb (mem k (v :: handled))) l) <= length (filter (fun k => negb (mem k handled)) l)).
  { intros l. apply filter_less. intros x _ H. apply negb_true_iff in H. apply negb_true_iff. apply mem_false in H. apply mem_false. intros I. apply H. now right. }
  pose proof (G l1). pose proof (G l2). lia.
Qed.

Lemma loop_ends : forall k n todo handled bs joined w, left_over handled <= k -> length todo <= n ->
  state bs (wanted handled) (given handled) -> stack_inv todo handled -> join_all joined = Ok w ->
  exists fuel, fix_loop fuel todo handled defs bs joined w <> Raise OutOfFuel.
Proof.
  induction k as [k IHk] using (well_founded_induction lt_wf). induction n as [n IHn] using (well_founded_induction lt_wf).
  intros todo handled bs joined w Lk Ln ST SI JA. destruct todo as [|(v, name) todo]; [exists 0; discriminate|].
  destruct (lookup name bs) as [b|] eqn:Lb; [|exists 1; cbn [fix_loop]; rewrite Lb; discriminate].
  destruct (lookup v (pb_phis b)) as [args|] eqn:La; [|exists 1; cbn [fix_loop]; rewrite Lb; cbn [of_option bind]; rewrite La; discriminate].
  destruct (fix_args args (pb_entries b) (v :: handled) defs (dict_set name (with_solve b (set_add v (pb_solve b))) bs) todo) as [(bs2, todo2)|e] eqn:F.
  2:{ exists 1. cbn [fix_loop]. rewrite Lb. cbn [of_option bind]. rewrite La. cbn [of_option bind]. rewrite F. cbn [bind].
      pose proof (fix_args_fuel _ _ _ _ _ _ F). congruence. }
  destruct (join_all_inv (joined ++ [(v, firstn (length (pb_entries b)) args)])) as (w1 & J1 & _).
  assert (J : join_phi w (v, firstn (length (pb_entries b)) args) = Ok w1).
  { unfold join_all in J1, JA. rewrite for_each_app, JA in J1. cbn [bind for_each] in J1. destruct (join_phi w _); [exact J1|discriminate]. }
  destruct (visit _ _ _ _ _ _ _ _ _ ST SI Lb La F) as (ST2 & SI2 & Same & _).
  assert (E : exists fuel, fix_loop fuel todo2 (v :: handled) defs bs2 (joined ++ [(v, firstn (length (pb_entries b)) args)]) w1 <> Raise OutOfFuel).
  { destruct (in_dec string_dec v handled) as [I|N].
    - rewrite (Same I) in *. apply (IHn (length todo)) with (w := w1); [cbn [length] in Ln; lia|rewrite left_same by exact I; exact Lk|reflexivity|exact ST2|exact SI2|exact J1].
    - assert (lookup v defs = Some name) as D by (apply (si_defs _ _ SI); now left). apply lookup_In_key in D.
      pose proof (left_less v handled N D). apply (IHk (left_over (v :: handled))) with (n := length todo2) (w := w1); [lia|reflexivity|reflexivity|exact ST2|exact SI2|exact J1]. }
  destruct E as (fuel & E). exists (S fuel). cbn [fix_loop]. rewrite Lb. cbn [of_option bind]. rewrite La. cbn [of_option bind]. rewrite F. cbn [bind]. rewrite J. exact E.
Qed.
End Repair.
