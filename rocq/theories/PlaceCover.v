(** Along every path of the dominator tree the repaired code loads a register only
    after storing it. *)
From Coq Require Import Permutation.
From Verif Require LevelProps.
From Verif Require Import Base Lexical LexicalProofs SymExecModel AsmModel DepsModel SpecModel UtilModel WebModel UnifyProps RegModel RegSpec RegProps
  PlaceModel PlaceSpec PlaceBlock PlaceTree.
Open Scope string_scope. Open Scope list_scope.

Lemma ids_access_det ids l l' : ids_access ids l -> ids_access ids l' -> l = l'.
Proof. intros A B. apply ids_access_eq in A as [-> _]. apply ids_access_eq in B as [-> _]. reflexivity. Qed.
Lemma insert_back v b b' li' : insert_dup_vset v b = Ok b' -> ids_access (pb_ids b') li' -> exists li, ids_access (pb_ids b) li.
Proof.
  unfold insert_dup_vset. intros H A. apply bind_ok in H as ([[p k] l] & _ & H).
  match type of H with Ok ?X = _ => assert (Eb : b' = X) by congruence end. subst b'. cbn [pb_ids with_ids] in A.
  apply ids_access_app in A as (a & c & _ & A1 & A2).
  assert (C : exists c', ids_access (skipn k (pb_ids b)) c') by (inversion A2; subst; eauto). destruct C as [c' C].
  exists (a ++ c'). rewrite <- (firstn_skipn k (pb_ids b)). apply ids_access_join; assumption.
Qed.
Lemma inserts_back : forall vs b b' li', for_each (fun b v => insert_dup_vset v b) vs b = Ok b' -> ids_access (pb_ids b') li' -> exists li, ids_access (pb_ids b) li.
Proof.
  induction vs as [|v vs IH]; intros b b' li' H A; cbn [for_each] in H; [injection H as <-; eauto|].
  apply bind_ok in H as (b1 & I & H). destruct (IH _ _ _ H A) as [l1 A1]. eapply insert_back; eassumption.
Qed.

(** A block before the stores: its loads that it does not store itself are counted,
    and the reachability does not offer a position after a load. *)
Definition block_fit (b : pblock) : Prop :=
  reach_first (pb_ids b) (pb_reach b) /\ (forall v, In v (map fst (pb_reach b)) -> comma_free v) /\
  forall li, ids_access (pb_ids b) li -> defined_before (map fst (pb_count b)) (li ++ map Load (deep_copies b)).

Lemma keys_cplus d : forall c x, In x (map fst (cplus c d)) <-> In x (map fst c) \/ In x (map fst d).
Proof.
  unfold cplus. induction d as [|[v n] d IH]; intros c x; cbn [fold_left map fst snd]; [cbn; tauto|]. rewrite IH, keys_set. cbn. intuition congruence.
Qed.
Lemma keys_pops zs : forall c x, In x (map fst c) -> In x zs \/ In x (map fst (fold_left (fun c v => cpop v c) zs c)).
Proof.
  induction zs as [|z zs IH]; intros c x I; cbn [fold_left]; [auto|].
  destruct (String.eqb_spec x z) as [->|N]; [left; left; reflexivity|].
  destruct (IH (cpop z c) x) as [Q|Q]; [|left; right; exact Q|right; exact Q].
  apply in_map_iff in I as ([y n] & E & I). cbn in E. subst y. apply in_map_iff. exists (x, n). split; [reflexivity|]. apply filter_In. split; [exact I|].
  cbn. destruct (String.eqb_spec x z); [contradiction|reflexivity].
Qed.

Section S.
Variable order : string -> list string -> list string.
Variable within : string -> string -> bool.
Hypothesis order_perm : forall b l, Permutation (order b l) l.

Lemma store_list_split l1 t l2 : forall I L0 c0 ts' L c I', store_list order within (l1 ++ t :: l2) I L0 c0 = Ok (ts', L, c, I') ->
  exists l1' L1 c1 I1 t' vs ct I2 l2', store_list order within l1 I L0 c0 = Ok (l1', L1, c1, I1) /\
    store_block order within t I1 = Ok (t', vs, ct, I2) /\
    store_list order within l2 I2 (set_union L1 vs) (cplus c1 ct) = Ok (l2', L, c, I') /\ ts' = l1' ++ t' :: l2' /\ length l1' = length l1.
Proof.
  induction l1 as [|t0 l1 IH]; intros I L0 c0 ts' L c I' H; cbn [app store_list] in H.
  - apply bind_ok in H as ([[[t1 vs] ct] I2] & B & H). apply bind_ok in H as ([[[ts1 La] ca] Ia] & R & H). injection H as <- <- <- <-.
    exists [], L0, c0, I, t1, vs, ct, I2, ts1. cbn. auto.
  - apply bind_ok in H as ([[[t1 vs] ct] I2] & B & H). apply bind_ok in H as ([[[ts1 La] ca] Ia] & R & H). injection H as <- <- <- <-.
    destruct (IH _ _ _ _ _ _ _ R) as (l1' & L1 & c1 & I1 & t' & vs' & ct' & I2' & l2' & H1 & H2 & H3 & -> & Hl).
    exists (t1 :: l1'), L1, c1, I1, t', vs', ct', I2', l2'. cbn [store_list]. rewrite B. cbn. rewrite H1. cbn. rewrite Hl. auto.
Qed.
Lemma store_list_mono ts : forall I L0 c0 ts' L c I', store_list order within ts I L0 c0 = Ok (ts', L, c, I') ->
  (forall x, In x L0 -> In x L) /\ (forall x, In x (map fst c0) -> In x (map fst c)) /\
  forall t', In t' ts' -> exists t I1 vs ct I2, In t ts /\ store_block order within t I1 = Ok (t', vs, ct, I2) /\
    (forall x, In x vs -> In x L) /\ (forall x, In x (map fst ct) -> In x (map fst c)).
Proof.
  induction ts as [|t ts IH]; intros I L0 c0 ts' L c I' H; cbn [store_list] in H.
  - injection H as <- <- <- <-. split; [auto|]. split; [auto|]. intros t' [].
  - apply bind_ok in H as ([[[t1 vs] ct] I2] & B & H). apply bind_ok in H as ([[[ts1 La] ca] Ia] & R & H). injection H as <- <- <- <-.
    destruct (IH _ _ _ _ _ _ _ R) as (M1 & M2 & M3). split; [intros x Q; apply M1, set_union_In; auto|]. split; [intros x Q; apply M2, keys_cplus; auto|].
    intros t' [<-|It].
    + exists t, I, vs, ct, I2. split; [left; reflexivity|]. split; [exact B|]. split; [intros x Q; apply M1, set_union_In; auto|intros x Q; apply M2, keys_cplus; auto].
    + destruct (M3 t' It) as (t2 & I3 & vs2 & ct2 & I4 & J1 & J2). exists t2, I3, vs2, ct2, I4. split; [right; exact J1|exact J2].
Qed.

Lemma node_covered b b' vs l K K' tl : block_fit b -> for_each (fun b v => insert_dup_vset v b) vs b = Ok b' ->
  (forall v, In v vs -> In v (map fst (pb_reach b))) -> pblock_access b' l ->
  (forall x, In x (map fst (pb_count b)) -> In x K) -> (forall x, In x K -> In x K' \/ In x vs) -> defined_before K tl -> defined_before K' (l ++ tl).
Proof.
  intros (RF & CF & Cov) Fe Vr (li' & A' & ->) Kb S D. destruct (inserts_same _ _ _ Fe) as (E1 & E2 & E3 & _).
  destruct (inserts_back _ _ _ _ Fe A') as [li A].
  assert (E : deep_copies b' = deep_copies b) by (unfold deep_copies; rewrite E3; reflexivity). rewrite E.
  destruct (inserts_access vs b b' li K K' (map Load (deep_copies b) ++ tl) Fe RF) as (li2 & A2 & D2 & _); auto.
  - rewrite app_assoc. apply defined_before_app_intro.
    + eapply defined_before_incl; [|apply Cov; exact A]. exact Kb.
    + eapply defined_before_incl; [|exact D]. intros x Q. apply in_app_iff. auto.
  - rewrite (ids_access_det _ _ _ A' A2). rewrite <- !app_assoc. apply defined_before_app_intro; [generalize (filter (fun x => mem x (pb_solve b')) (map fst (pb_phis b'))); intros q; clear; revert K'; induction q as [|y q IH]; intros K'; cbn; [exact I|apply IH]|].
    eapply defined_before_incl; [|exact D2]. intros x Q. apply in_app_iff. auto.
Qed.

Lemma covered t : forall I t' L comb I', (forall b, In b (tree_blocks t) -> block_fit b) -> store_block order within t I = Ok (t', L, comb, I') ->
  forall p l, ppath t' p -> pblocks_access p l -> defined_before (map fst comb ++ L) l.
Proof.
  induction t as [b ch IH] using ptree_ind'. intros I t' L comb I' Fit H p l P A. rewrite store_block_eq in H.
  apply bind_ok in H as ([[[ch' intro] combined] I1] & R & H).
  destruct (substract_zero I1 (cplus combined (pb_count b))) as [[zs I2] comb2] eqn:Z.
  apply bind_ok in H as ([b' L'] & S & H). injection H as <- <- <- <-.
  apply store_here_spec in S as [S ->]. set (vs := stores_at order within (set_union intro zs) b) in *.
  assert (Vr : forall v, In v vs -> In v (map fst (pb_reach b))) by (intros v Q; apply stores_at_incl in Q; [apply Q|exact order_perm]).
  set (K := map fst (cplus combined (pb_count b)) ++ intro).
  assert (KS : forall x, In x K -> In x (map fst comb2 ++ filter (fun v => negb (mem v vs)) (set_union intro zs)) \/ In x vs).
  { assert (G : forall x, In x (set_union intro zs) -> In x (map fst comb2 ++ filter (fun v => negb (mem v vs)) (set_union intro zs)) \/ In x vs).
    { intros x Q. destruct (mem x vs) eqn:M; [right; apply mem_In, M|]. left. apply in_app_iff. right. apply filter_In. rewrite M. auto. }
    intros x Q. apply in_app_iff in Q as [Q|Q]; [|apply G, set_union_In; auto].
    unfold substract_zero in Z. destruct (fold_left zero_step _ _) as [z0 l0]. injection Z as <- <- <-.
    destruct (keys_pops z0 _ x Q) as [Q'|Q']; [apply G, set_union_In; auto|]. left. apply in_app_iff. auto. }
  inversion P; subst.
  - inversion A; subst. match goal with Q : pblocks_access [] _ |- _ => inversion Q; subst end.
    eapply (node_covered b b' vs _ K); eauto; [apply Fit; left; reflexivity| |exact Logic.I].
    intros x Q. unfold K. rewrite in_app_iff, keys_cplus. auto.
  - inversion A; subst. destruct (store_list_mono _ _ _ _ _ _ _ _ R) as (_ & _ & M).
    match goal with Q : In ?t ch' |- _ => destruct (M _ Q) as (t0 & Ia & vs0 & ct & Ib & T1 & T2 & T3 & T4) end.
    rewrite Forall_forall in IH. eapply (node_covered b b' vs _ K); eauto; [apply Fit; left; reflexivity| |].
    + intros x Q. unfold K. rewrite in_app_iff, keys_cplus. auto.
    + eapply defined_before_incl; [|eapply (IH t0 T1); eauto].
      * intros x Q. unfold K. rewrite in_app_iff, keys_cplus. apply in_app_iff in Q as [Q|Q]; auto.
      * intros b0 Ib0. apply Fit. right. apply in_concat. exists (tree_blocks t0). split; [apply in_map; exact T1|exact Ib0].
Qed.
End S.

Lemma pin_blocks b t : pin b t <-> In b (tree_blocks t).
Proof.
  split.
  - induction 1 as [b ch|b b' ch t I H IH]; cbn; [auto|]. right. apply in_concat. exists (tree_blocks t). split; [apply in_map; exact I|exact IH].
  - induction t as [b0 ch IH] using ptree_ind'. cbn. intros [<-|I]; [constructor|]. apply in_concat in I as (l & Il & I). apply in_map_iff in Il as (t & <- & It).
    rewrite Forall_forall in IH. econstructor; [exact It|]. apply IH; assumption.
Qed.
Lemma sum_cons v b bs : sum v (b :: bs) = uses v b + sum v bs.
Proof. reflexivity. Qed.
Lemma sum_zero v bs : (forall b, In b bs -> uses v b = 0) -> sum v bs = 0.
Proof. induction bs as [|b bs IH]; intros H; [reflexivity|]. rewrite sum_cons, (H b), IH; [reflexivity|intros b' I; apply H; right; exact I|left; reflexivity]. Qed.
Lemma sum_pos v bs b : In b bs -> uses v b <= sum v bs.
Proof. induction bs as [|b' bs IH]; [intros []|]. rewrite sum_cons. intros [->|I]; [lia|]. apply IH in I. lia. Qed.
Lemma totals_zero v ts : (forall t b, In t ts -> pin b t -> uses v b = 0) -> totals v ts = 0.
Proof. intros H. apply sum_zero. intros b I. apply in_concat in I as (l & Il & I). apply in_map_iff in Il as (t & <- & It). apply (H t b It), pin_blocks, I. Qed.
Lemma totals_app v a b : totals v (a ++ b) = totals v a + totals v b.
Proof. unfold totals. rewrite map_app, concat_app, sum_app. reflexivity. Qed.
Lemma totals_cons v t ts : totals v (t :: ts) = total v t + totals v ts.
Proof. unfold totals, total. cbn. apply sum_app. Qed.
Lemma all_uses_total v t s : all_uses_in v t s -> total v s = total v t.
Proof.
  induction 1 as [t|b l1 t l2 s U N H IH]; [reflexivity|]. rewrite IH.
  change (total v t = uses v b + totals v (l1 ++ t :: l2)). rewrite totals_app, totals_cons, U.
  rewrite (totals_zero v l1), (totals_zero v l2); [lia|..]; intros t' b' I; apply N; apply in_app_iff; auto.
Qed.

(* --- what the whole tree leaves --- *)
Lemma fold_cplus bs : forall c, cwf c -> (forall b, In b bs -> cwf (pb_count b)) ->
  cwf (fold_left (fun c b => cplus c (pb_count b)) bs c) /\ forall v, cget (fold_left (fun c b => cplus c (pb_count b)) bs c) v = cget c v + sum v bs.
Proof.
  induction bs as [|b bs IH]; intros c W H; cbn [fold_left]; [split; [exact W|]; intros v; unfold sum; cbn; lia|].
  destruct (cplus_spec (pb_count b) c) as [W1 E1]; [apply H; left; reflexivity|exact W|].
  destruct (IH (cplus c (pb_count b)) W1) as [W2 E2]; [intros b' I; apply H; right; exact I|]. split; [exact W2|].
  intros v. rewrite E2, E1, sum_cons. unfold uses. lia.
Qed.
Lemma sum_perm v a b : Permutation a b -> sum v a = sum v b.
Proof. intros P. induction P; rewrite ?sum_cons; lia. Qed.

Section S2.
Variable order : string -> list string -> list string.
Variable within : string -> string -> bool.
Hypothesis order_perm : forall b l, Permutation (order b l) l.

(** a variable is left over by a subtree with all its uses only if the root
    cannot store it *)
Lemma left_over v t s : all_uses_in v t s -> forall I t' L comb I', counts_ok t -> (forall x, total x t <= cget I x) ->
  store_block order within t I = Ok (t', L, comb, I') -> In v L ->
  ~ (In v (map fst (pb_reach (proot s))) /\ within v (pb_name (proot s)) = true).
Proof.
  induction 1 as [t|b l1 t l2 s U N H IH]; intros I t' L comb I' CO Hle B Iv.
  - destruct t as [b ch]. cbn [proot]. rewrite store_block_eq in B.
    apply bind_ok in B as ([[[ch' intro] combined] I1] & R & B).
    destruct (substract_zero I1 (cplus combined (pb_count b))) as [[zs I2] comb2] eqn:Z.
    apply bind_ok in B as ([b' L'] & S & B). injection B as <- <- <- <-. apply store_here_spec in S as [S ->].
    apply filter_In in Iv as [Iv M]. intros [Q1 Q2]. assert (X : In v (stores_at order within (set_union intro zs) b)) by (apply stores_at_incl; auto).
    apply mem_In in X. rewrite X in M. discriminate.
  - pose proof (store_block_inv order within order_perm _ _ _ _ _ _ CO Hle B) as (_ & ins & _ & _ & St).
    rewrite store_block_eq in B.
    apply bind_ok in B as ([[[ch' intro] combined] I1] & R & B).
    destruct (substract_zero I1 (cplus combined (pb_count b))) as [[zs I2] comb2] eqn:Z.
    apply bind_ok in B as ([b' L'] & S & B). injection B as <- <- <- <-. apply store_here_spec in S as [S ->].
    set (vs := stores_at order within (set_union intro zs) b) in *.
    assert (E1 : totals v l1 = 0) by (apply totals_zero; intros t0 b0 I0; apply N; apply in_app_iff; auto).
    assert (E2 : totals v l2 = 0) by (apply totals_zero; intros t0 b0 I0; apply N; apply in_app_iff; auto).
    assert (Et : forall x, total x (PNode b (l1 ++ t :: l2)) = uses x b + (totals x l1 + (total x t + totals x l2))).
    { intros x. change (uses x b + totals x (l1 ++ t :: l2) = uses x b + (totals x l1 + (total x t + totals x l2))). rewrite totals_app, totals_cons. reflexivity. }
    (* decided: the uses of v are all the uses there are *)
    destruct (St v) as [(_ & _ & _ & X)|(_ & _ & Pos & Eq & _)]; [exfalso; apply X, in_app_iff; right; exact Iv|].
    rewrite Et, U, E1, E2 in Pos, Eq. cbn [Nat.add] in Pos, Eq. rewrite Nat.add_0_r in Pos, Eq.
    assert (CO1 : forall t0, In t0 (l1 ++ t :: l2) -> counts_ok t0).
    { intros t0 I0 b0 Ib. apply CO. right. apply in_concat. exists (tree_blocks t0). split; [apply in_map; exact I0|exact Ib]. }
    apply store_list_split in R as (l1' & L1 & c1 & Ia & t1 & vt & ct & Ib & l2' & R1 & Rt & R2 & -> & _).
    assert (P1 : posts l1 l1' I Ia [] c1 [] L1).
    { eapply (store_list_inv order within); [|..|exact R1]; try (constructor; fail); [|..|apply cwf_nil|intros x []].
      - apply Forall_forall. intros t0 _. apply (store_block_inv order within order_perm).
      - intros t0 I0. apply CO1, in_app_iff. auto.
      - intros x. specialize (Hle x). rewrite Et in Hle. unfold cget at 1. cbn [lookup]. lia. }
    destruct P1 as (Wc1 & N1 & Z1 & ins1 & St1 & Nd1 & Di1 & Rs1).
    assert (Le1 : forall x, cget c1 x + (total x t + totals x l2) <= cget Ia x).
    { intros x. specialize (Hle x). rewrite Et in Hle. change (cget [] x) with 0 in *.
      destruct (Rs1 x) as [(Q1 & Q2 & _)|(Q1 & Q2 & Q3 & Q4 & _)]; change (cget [] x) with 0 in *; lia. }
    assert (V1 : cget Ia v = cget I v /\ ~ In v L1).
    { destruct (Rs1 v) as [(_ & Q2 & Q3 & _)|(Q1 & _)]; [split; [exact Q2|rewrite Q3; intros []]|lia]. }
    destruct V1 as [V1 V1'].
    assert (Pt : post t t1 Ia Ib ct vt).
    { eapply (store_block_inv order within order_perm); [apply CO1, in_app_iff; right; left; reflexivity| |exact Rt]. intros x. specialize (Le1 x). lia. }
    destruct Pt as (Wct & inst & Stt & Ndt & Rst).
    destruct (Rst v) as [(Q1 & Q2 & Q3 & Q4)|(Q1 & Q2 & Q3 & Q4 & Q5)]; [lia|].
    destruct (cplus_spec ct c1 Wct Wc1) as [Wcc Ecc].
    assert (P2 : posts l2 l2' Ib I1 (cplus c1 ct) combined (set_union L1 vt) intro).
    { eapply (store_list_inv order within); [|..|exact R2]; [|..|exact Wcc|apply set_union_nodup; exact N1|].
      - apply Forall_forall. intros t0 _. apply (store_block_inv order within order_perm).
      - intros t0 I0. apply CO1, in_app_iff. right. right. exact I0.
      - intros x. rewrite Ecc. specialize (Le1 x). destruct (Rst x) as [(T1 & T2 & _)|(T1 & T2 & T3 & T4 & _)]; lia.
      - intros x Ix. apply set_union_In in Ix as [Ix|Ix].
        + apply Z1 in Ix. destruct (Rst x) as [(_ & T2 & _)|(_ & T2 & _)]; lia.
        + destruct (Rst x) as [(_ & _ & _ & T4)|(_ & T2 & _)]; [|exact T2]. exfalso. apply T4, in_app_iff. auto. }
    destruct P2 as (Wc2 & N2 & Z2' & ins2 & St2 & Nd2 & Di2 & Rs2).
    destruct (Rs2 v) as [(T1 & T2 & T3 & T4)|(T1 & _)]; [|lia].
    eapply IH; [apply CO1, in_app_iff; right; left; reflexivity| |exact Rt|].
    { intros x. specialize (Le1 x). lia. }
    apply filter_In in Iv as [Iv _]. apply set_union_In in Iv as [Iv|Iv].
    + apply T3, set_union_In in Iv as [Iv|Iv]; [contradiction|exact Iv].
    + exfalso. assert (Wb : cwf (pb_count b)) by (apply CO; left; reflexivity). destruct (cplus_spec (pb_count b) combined Wb Wc2) as [W3 E3].
      apply (substract_zero_spec _ _ _ _ _ W3 Z) in Iv as [J1 J2]. rewrite E3 in J1, J2. rewrite T2, Q2 in J2. lia.
Qed.

(** a path that meets a use of the variable goes through the root of a subtree
    with all the uses, and not through a use before *)
Lemma through v t s p : all_uses_in v t s -> ppath t p -> (exists b, In b p /\ 0 < uses v b) ->
  exists p1 p2, p = p1 ++ proot s :: p2 /\ forall b, In b p1 -> uses v b = 0.
Proof.
  intros H. revert p. induction H as [t|b l1 t l2 s U N H IH]; intros p P (c & Ic & Uc).
  - inversion P; subst; cbn [proot].
    + exists [], []. split; [reflexivity|intros b0 []].
    + exists [], p0. split; [reflexivity|intros b0 []].
  - assert (Pin : forall t p, ppath t p -> forall x, In x p -> pin x t).
    { clear. induction 1 as [b ch|b ch t p I P IH]; intros x [<-|Ix]; try (constructor; fail); [destruct Ix|]. econstructor; eauto. }
    inversion P; subst.
    + destruct Ic as [<-|[]]. lia.
    + destruct Ic as [<-|Ic]; [lia|]. match goal with Q : In ?t0 (l1 ++ t :: l2) |- _ => apply in_app_iff in Q; cbn in Q end.
      match goal with Q : In ?t0 l1 \/ t = ?t0 \/ In ?t0 l2 |- _ => destruct Q as [Q|[Q|Q]] end.
      * rewrite (N t0 c) in Uc; [lia|apply in_app_iff; auto|eapply Pin; eassumption].
      * subst t0. destruct (IH _ ltac:(eassumption)) as (p1 & p2 & -> & Hp); [exists c; auto|]. exists (b :: p1), p2. split; [reflexivity|].
        intros b0 [<-|I0]; auto.
      * rewrite (N t0 c) in Uc; [lia|apply in_app_iff; auto|eapply Pin; eassumption].
Qed.
End S2.
