(** C38: the repaired code loads a register only after storing it. *)
From Coq Require Import Permutation.
From Verif Require LevelProps.
From Verif Require Import Base Lexical LexicalProofs SymExecModel AsmModel DepsModel SpecModel UtilModel WebModel UnifyProps RegModel RegSpec RegProps
  PlaceModel PlaceSpec PlaceBlock PlaceTree PlaceCover PlaceRepair.
Open Scope string_scope. Open Scope list_scope.

(* --- one variable --- *)
Fixpoint okv (v : string) (l : list access) : Prop :=
  match l with
  | [] => True
  | Store x :: l' => x = v \/ okv v l'
  | Load x :: l' => x <> v /\ okv v l'
  end.
Lemma okv_app v l l' : okv v l -> okv v l' -> okv v (l ++ l').
Proof. intros H H'. induction l as [|[x|x] l IH]; cbn in *; [exact H'|destruct H; auto|destruct H; auto]. Qed.
Lemma okv_stores v S l : In v S -> okv v (map Store S ++ l).
Proof. induction S as [|x S IH]; cbn; [tauto|]. intros [->|I]; auto. Qed.
Lemma okv_defined v l : forall K, defined_before K l -> ~ In v K -> okv v l.
Proof.
  induction l as [|[x|x] l IH]; intros K D N; cbn in *; [exact I| |].
  - destruct (String.eqb_spec x v) as [->|Nx]; [auto|]. right. apply (IH _ D). intros [Q|Q]; [contradiction|contradiction].
  - destruct D as [D1 D2]. split; [intros ->; contradiction|]. apply (IH _ D2 N).
Qed.
Lemma defined_okv l : forall K, (forall v, In v K \/ okv v l) -> defined_before K l.
Proof.
  induction l as [|[x|x] l IH]; intros K H; cbn; [exact I| |].
  - apply IH. intros v. destruct (H v) as [Q|[->|Q]]; cbn; auto.
  - split; [destruct (H x) as [Q|[Q _]]; [exact Q|contradiction]|]. apply IH. intros v. destruct (H v) as [Q|[_ Q]]; auto.
Qed.

(* --- blocks before and after the stores --- *)
Definition grown (b b' : pblock) : Prop := exists vs, for_each (fun b v => insert_dup_vset v b) vs b = Ok b' /\ forall v, In v vs -> In v (map fst (pb_reach b)).
Lemma insert_keys v b b' : insert_dup_vset v b = Ok b' -> map fst (pb_reach b') = map fst (pb_reach b) /\ In v (map fst (pb_reach b)) /\
  pb_declared b' = pb_declared b /\ pb_src b' = pb_src b /\ (forall id, In id (pb_ids b) -> In id (pb_ids b')).
Proof.
  unfold insert_dup_vset. intros H. apply bind_ok in H as ([[p k] l] & L & H).
  match type of H with Ok ?X = _ => assert (Eb : b' = X) by congruence end. subst b'. cbn [pb_reach pb_declared pb_src pb_ids with_ids].
  split; [rewrite map_map; apply map_ext; intros [x [[p' k'] l']]; reflexivity|].
  destruct (lookup v (pb_reach b)) as [e|] eqn:E; [|discriminate]. split; [|split; [reflexivity|split; [reflexivity|]]].
  - apply RemoveProps.lookup_In in E. apply in_map_iff. exists (v, e). auto.
  - intros id I. rewrite <- (firstn_skipn k (pb_ids b)) in I. apply in_app_iff in I. apply in_app_iff. cbn. tauto.
Qed.
Lemma grown_same b b' : grown b b' -> map fst (pb_reach b') = map fst (pb_reach b) /\ pb_declared b' = pb_declared b /\ pb_src b' = pb_src b /\
  (forall id, In id (pb_ids b) -> In id (pb_ids b')) /\ pb_count b' = pb_count b /\ deep_copies b' = deep_copies b /\ pb_name b' = pb_name b.
Proof.
  intros (vs & F & _). destruct (inserts_same _ _ _ F) as (_ & _ & E3 & E4 & E5).
  unfold deep_copies. rewrite E3, E4, E5. clear E3 E4 E5. revert b F. induction vs as [|v vs IH]; intros b F; cbn [for_each] in F; [injection F as <-; intuition|].
  apply bind_ok in F as (b1 & I & F). destruct (IH _ F) as (I1 & I2 & I3 & I4 & _). apply insert_keys in I as (J1 & J2 & J3 & J4 & J5).
  rewrite I1, I2, I3. intuition.
Qed.
Inductive tgrown : ptree -> ptree -> Prop :=
| tg b ch b' ch' : grown b b' -> Forall2 tgrown ch ch' -> tgrown (PNode b ch) (PNode b' ch').
Lemma stored_grown t : forall t' ins, stored t t' ins -> tgrown t t'.
Proof.
  induction t as [b ch IH] using ptree_ind'. intros t' ins H. inversion H as [? ? b' ch' vs ins' F A]; subst. constructor.
  - exists vs. split; [exact F|]. clear -F. revert b F. induction vs as [|v vs IH]; intros b F x []; cbn [for_each] in F; apply bind_ok in F as (b1 & I & F).
    + subst. apply insert_keys in I. apply I.
    + apply insert_keys in I as (<- & _). eapply IH; eassumption.
  - clear H F. revert ch' ins' A. induction IH as [|t ch Ht _ IHc]; intros ch' ins' A; inversion A; subst; constructor; eauto.
Qed.
Section TgrownInd.
  Variable P : ptree -> ptree -> Prop.
  Hypothesis H : forall b ch b' ch', grown b b' -> Forall2 tgrown ch ch' -> Forall2 P ch ch' -> P (PNode b ch) (PNode b' ch').
  Lemma tgrown_ind' t : forall t', tgrown t t' -> P t t'.
  Proof.
    induction t as [b ch IH] using ptree_ind'. intros t' T. inversion T as [? ? b' ch' G F]; subst. apply H; [exact G|exact F|].
    clear -IH F. induction F as [|x y l l' T F IHF]; [constructor|]. inversion IH; subst. constructor; auto.
  Qed.
End TgrownInd.
Lemma grown_blocks t t' : tgrown t t' -> Forall2 grown (tree_blocks t) (tree_blocks t').
Proof.
  apply (tgrown_ind' (fun t t' => Forall2 grown (tree_blocks t) (tree_blocks t'))).
  intros b ch b' ch' G _ F. cbn. constructor; [exact G|]. induction F; cbn; [constructor|]. apply Forall2_app; assumption.
Qed.
Lemma Forall2_in_r {A B} (R : A -> B -> Prop) l l' y : Forall2 R l l' -> In y l' -> exists x, In x l /\ R x y.
Proof. induction 1 as [|a b l l' H F IH]; [intros []|]. intros [<-|I]; [exists a; split; [left; reflexivity|exact H]|]. destruct (IH I) as (x & Ix & Rx). exists x. split; [right; exact Ix|exact Rx]. Qed.
Lemma Forall2_in_l {A B} (R : A -> B -> Prop) l l' x : Forall2 R l l' -> In x l -> exists y, In y l' /\ R x y.
Proof. induction 1 as [|a b l l' H F IH]; [intros []|]. intros [<-|I]; [exists b; split; [left; reflexivity|exact H]|]. destruct (IH I) as (y & Iy & Ry). exists y. split; [right; exact Iy|exact Ry]. Qed.
Lemma grown_in t t' b' : tgrown t t' -> pin b' t' -> exists b, pin b t /\ grown b b'.
Proof. intros T I. apply pin_blocks in I. apply grown_blocks in T. destruct (Forall2_in_r _ _ _ _ T I) as (b & Ib & G). exists b. split; [apply pin_blocks, Ib|exact G]. Qed.
Lemma grown_in_l t t' b : tgrown t t' -> pin b t -> exists b', pin b' t' /\ grown b b'.
Proof. intros T I. apply pin_blocks in I. apply grown_blocks in T. destruct (Forall2_in_l _ _ _ _ T I) as (b' & Ib & G). exists b'. split; [apply pin_blocks, Ib|exact G]. Qed.

Lemma good_fit b : good b -> (forall v, In v (map fst (pb_reach b)) -> comma_free v) -> block_fit b.
Proof.
  intros (G1 & G2 & G3 & G4 & G5 & _) CF. split; [exact G1|]. split; [exact CF|]. intros li A. apply defined_before_app_intro.
  - rewrite initial_get_count_eq in G3. destruct (fold_left count_step (pb_ids b) ([], 0, [])) as [[c n] acc] eqn:F.
    apply (count_covers _ _ A) in F as (_ & F & _). apply F; [intros x []|exact G3].
  - assert (D : forall x, In x (deep_copies b) -> In x (rev (stores li) ++ map fst (pb_count b))).
    { intros x I. apply in_map_iff in I as ([y f] & <- & I). apply filter_In in I as [I Q]. cbn in *. apply in_app_iff. right. apply (G5 y f I). destruct f; [discriminate|reflexivity]. }
    revert D. generalize (rev (stores li) ++ map fst (pb_count b)). clear. induction (deep_copies b) as [|y l IH]; intros s D; cbn; [exact I|].
    split; [apply D; left; reflexivity|]. apply IH. intros x Q. apply D. right. exact Q.
Qed.
Lemma acc_vget x : In (Load x) (acc_id (vget_id x)).
Proof. apply acc_load. split; [reflexivity|apply extract_vget]. Qed.
Lemma used_reads b b' v : good b -> grown b b' -> (exists l, pblock_access b' l) -> 0 < uses v b' -> reads v b'.
Proof.
  intros G Gr (l & A) U. destruct (grown_same _ _ Gr) as (_ & _ & _ & Ids & Ec & Ed & _). exists l. split; [exact A|]. destruct A as (li' & A & ->).
  unfold uses in U. rewrite Ec in U. destruct Gr as (vs & F & _). destruct (inserts_back _ _ _ _ F A) as (li & A0).
  destruct G as (_ & W & _ & G4 & _). apply cget_In in U; [|exact W]. rewrite !in_app_iff. destruct (G4 v U) as [Q|Q].
  - right. left. rewrite initial_get_count_eq in Q. destruct (fold_left count_step (pb_ids b) ([], 0, [])) as [[c n] acc] eqn:Fo.
    apply (count_covers _ _ A0) in Fo as (_ & _ & _ & Fo). destruct (Fo v Q) as [[]|Q']. apply (ids_access_load _ _ _ A0), Ids in Q'.
    apply ids_access_eq in A as [-> _]. apply in_flat_map. exists (vget_id v). split; [exact Q'|apply acc_vget].
  - right. right. rewrite Ed. apply in_map. exact Q.
Qed.

Lemma reads_uses v t s : all_reads_in v t s -> (forall b, pin b t -> 0 < uses v b -> reads v b) -> all_uses_in v t s.
Proof.
  induction 1 as [t|b l1 t l2 s U N H IH]; intros R; [constructor|]. constructor.
  - destruct (Nat.eq_dec (uses v b) 0) as [e|e]; [exact e|]. exfalso. apply U, R; [constructor|lia].
  - intros t' b' I P. destruct (Nat.eq_dec (uses v b') 0) as [e|e]; [exact e|]. exfalso. apply (N t' b' I P), R; [|lia].
    econstructor; [|exact P]. apply in_app_iff in I. apply in_app_iff. cbn. tauto.
  - apply IH. intros b' P. apply R. econstructor; [|exact P]. apply in_app_iff. right. left. reflexivity.
Qed.
Lemma grown_uses v t' s' : all_uses_in v t' s' -> forall t, tgrown t t' -> exists s, all_uses_in v t s /\ grown (proot s) (proot s').
Proof.
  induction 1 as [t'|b' l1' t' l2' s' U N H IH]; intros t T.
  - exists t. split; [constructor|]. inversion T; assumption.
  - inversion T as [b ch ? ? G F]; subst. apply Forall2_app_inv_r in F as (l1 & r & F1 & F2 & ->). inversion F2 as [|t0 ? l2 ? Tt F3]; subst.
    destruct (IH t0 Tt) as (s & A & Gs). exists s. split; [|exact Gs]. constructor; [| |exact A].
    + unfold uses. destruct (grown_same _ _ G) as (_ & _ & _ & _ & Ec & _). unfold uses in U. rewrite Ec in U. exact U.
    + intros t1 b1 I P. assert (F : Forall2 tgrown (l1 ++ l2) (l1' ++ l2')) by (apply Forall2_app; assumption).
      destruct (Forall2_in_l _ _ _ _ F I) as (t1' & I' & T1). destruct (grown_in_l _ _ _ T1 P) as (b1' & P' & G1).
      specialize (N t1' b1' I' P'). destruct (grown_same _ _ G1) as (_ & _ & _ & _ & Ec & _). unfold uses in *. rewrite Ec in N. exact N.
Qed.
Lemma grown_path t t' p' : tgrown t t' -> ppath t' p' -> forall b', In b' p' -> exists b, pin b t /\ grown b b'.
Proof.
  intros T P b' I. apply (grown_in t t'); [exact T|]. clear T. induction P; destruct I as [<-|I]; try constructor; [destruct I|]. econstructor; eauto.
Qed.

Lemma uses_pin v t s : all_uses_in v t s -> pin (proot s) t.
Proof. induction 1 as [[b ch]|b l1 t l2 s U N H IH]; [constructor|]. econstructor; [|exact IH]. apply in_app_iff. right. left. reflexivity. Qed.
Lemma same_name t b c : NoDup (map pb_name (tree_blocks t)) -> pin b t -> pin c t -> pb_name b = pb_name c -> b = c.
Proof.
  intros N B C E. apply pin_blocks in B. apply pin_blocks in C. pose proof (lookup_tree_block _ _ N B) as L1. pose proof (lookup_tree_block _ _ N C) as L2. congruence.
Qed.
Lemma only_before v t t' : tgrown t t' -> NoDup (map pb_name (tree_blocks t)) -> forall b b', pin b t -> grown b b' -> only_definition t' b' v -> only_definition t b v.
Proof.
  intros T N b b' P G (P' & D & U).
  assert (Gr : grown (proot t) (proot t')) by (inversion T; assumption).
  assert (Pr : pin (proot t) t) by (destruct t; constructor).
  assert (Pr' : pin (proot t') t') by (destruct t'; constructor).
  pose proof (grown_same _ _ G) as (_ & E2 & E3 & _ & _ & _ & E7). pose proof (grown_same _ _ Gr) as (_ & F2 & F3 & _ & _ & _ & F7).
  split; [exact P|]. split.
  - destruct D as [D|[-> D]]; [left; rewrite <- E2; exact D|]. right. split; [apply (same_name t); auto; congruence|rewrite <- E3; exact D].
  - intros c Pc [Dc|[-> Dc]].
    + destruct (grown_in_l _ _ _ T Pc) as (c' & Pc' & Gc). pose proof (grown_same _ _ Gc) as (_ & H2 & _ & _ & _ & _ & H7).
      assert (Q : c' = b') by (apply U; [exact Pc'|left; rewrite H2; exact Dc]). apply (same_name t); auto. congruence.
    + assert (Q : proot t' = b') by (apply U; [exact Pr'|right; split; [reflexivity|rewrite F3; exact Dc]]). apply (same_name t); auto. congruence.
Qed.

Lemma store_tree_spec order within t t' rest n : (forall b l, Permutation (order b l) l) -> (forall b, pin b t -> good b) ->
  store_tree order within (tree_blocks t) t = Ok (t', rest, n) ->
  tgrown t t' /\ (forall v, In v rest -> 0 < total v t) /\
  (forall v s, In v rest -> all_uses_in v t s -> ~ (In v (map fst (pb_reach (proot s))) /\ within v (pb_name (proot s)) = true)) /\
  ((forall b, pin b t -> block_fit b) -> forall p l, ppath t' p -> pblocks_access p l -> defined_before rest l) /\
  exists ins, stored t t' ins /\ NoDup (ins ++ rest) /\ forall v, In v (ins ++ rest) <-> 0 < total v t.
Proof.
  intros OP G H. unfold store_tree in H. apply bind_ok in H as ([[[t1 r1] comb] I1] & B & H). injection H as <- <- <-.
  assert (CO : counts_ok t) by (intros b I; apply pin_blocks, G in I; apply I).
  destruct (fold_cplus (tree_blocks t) [] cwf_nil CO) as [_ E]. cbn [cget lookup] in E.
  set (tot := fold_left (fun c b => cplus c (pb_count b)) (tree_blocks t) []) in *.
  assert (Et : forall v, cget tot v = total v t) by (intros v; rewrite E; reflexivity).
  assert (Le : forall v, total v t <= cget tot v) by (intros v; rewrite Et; lia).
  destruct (store_block_inv order within OP _ _ _ _ _ _ CO Le B) as (W & ins & St & ND & S).
  assert (Z : forall v, cget comb v = 0 /\ (In v (ins ++ r1) <-> 0 < total v t)).
  { intros v. destruct (S v) as [(S1 & S2 & S3 & S4)|(S1 & S2 & S3 & S4 & S5)]; rewrite Et in *; [split; [lia|split; [contradiction|lia]]|]. split; [exact S1|tauto]. }
  assert (K : map fst comb = []).
  { destruct (map fst comb) as [|x l] eqn:Q; [reflexivity|]. assert (I : In x (map fst comb)) by (rewrite Q; left; reflexivity). apply cget_In in I; [|exact W].
    destruct (Z x) as [Z1 _]. lia. }
  split; [eapply stored_grown; exact St|]. split; [intros v I; apply Z, in_app_iff; auto|]. split; [|split].
  - intros v s I A. eapply (left_over order within OP); eauto.
  - intros Fit p l P A. pose proof (covered order within OP t _ _ _ _ _ (fun b I => Fit b (proj2 (pin_blocks b t) I)) B p l P A) as D. rewrite K in D. exact D.
  - exists ins. split; [exact St|]. split; [exact ND|]. intros v. apply Z.
Qed.

(** the loads of a block without an earlier store are counted *)
Lemma grown_covered b b' l : block_fit b -> grown b b' -> pblock_access b' l -> defined_before (map fst (pb_count b')) l.
Proof.
  intros Fit (vs & F & V) A. rewrite <- (app_nil_r l). destruct (inserts_same _ _ _ F) as (_ & _ & _ & _ & Ec). rewrite Ec.
  eapply (node_covered b b' vs l (map fst (pb_count b))); eauto. exact I.
Qed.
Lemma path_okv v p : (forall b, In b p -> uses v b = 0 /\ cwf (pb_count b) /\ forall l, pblock_access b l -> defined_before (map fst (pb_count b)) l) ->
  forall l, pblocks_access p l -> okv v l.
Proof.
  intros H l A. induction A as [|b bs l l' A As IH]; [exact I|]. apply okv_app; [|apply IH; intros b' Q; apply H; right; exact Q].
  destruct (H b (or_introl eq_refl)) as (U & W & D). eapply okv_defined; [apply D; exact A|]. intros Q. apply cget_In in Q; [|exact W]. unfold uses in U. lia.
Qed.
Lemma pblocks_access_app p1 p2 l : pblocks_access (p1 ++ p2) l -> exists a b, l = a ++ b /\ pblocks_access p1 a /\ pblocks_access p2 b.
Proof.
  revert l. induction p1 as [|b p1 IH]; intros l H; cbn in H; [exists [], l; split; [reflexivity|split; [constructor|exact H]]|].
  inversion H as [|? ? l1 l2 A As]; subst. destruct (IH _ As) as (a & c & -> & Q1 & Q2). exists (l1 ++ a), c. split; [apply app_assoc|]. split; [constructor; assumption|exact Q2].
Qed.

(** C38.  The result of the repair.  If the block that defines a variable has it
    within reach of a DUP at some point, or solves its phi function through
    registers, and the blocks that read its register are in the subtree of that
    block, then along every path of the dominator tree every load of a register
    comes after a store of the same variable. *)
Theorem registers_written_first : forall depth fuel order f to_fix t t' rest n k,
  (forall b l, Permutation (order b l) l) ->
  NoDup (map pb_name (tree_blocks t)) ->
  (forall a b, In (a, b) (f_edges f) -> In a (f_nodes f)) ->
  repair_tree depth fuel order f to_fix t = Ok (t', rest, n, k) ->
  (forall b, pin b t' -> (exists l, pblock_access b l) /\ forall v, In v (map fst (pb_reach b)) -> contains "," v = false) ->
  (forall v b, pin b t' -> reads v b -> exists s, all_reads_in v t' s /\
     (In v (map fst (pb_reach (proot s))) /\ only_definition t' (proot s) v \/
      In v (map fst (pb_phis (proot s))) /\ In v (pb_solve (proot s)))) ->
  forall p l, ppath t' p -> pblocks_access p l -> defined_before [] l.
Proof.
  intros depth fuel order f to_fix t t' rest n k OP ND Wf H Ok Def p l P A.
  destruct (repair_tree_before _ _ _ _ _ _ _ _ _ _ ND H) as (t2 & headers & m & G & En & Ep & V & S).
  destruct (store_tree_spec _ _ _ _ _ _ OP G S) as (T & R1 & R2 & R3 & _).
  assert (Fit : forall b, pin b t2 -> block_fit b).
  { intros b I. destruct (grown_in_l _ _ _ T I) as (b' & I' & Gr). apply good_fit; [apply G, I|]. destruct (grown_same _ _ Gr) as (<- & _). apply Ok, I'. }
  pose proof (R3 Fit p l P A) as D.
  assert (Pin : forall b, In b p -> exists b0, pin b0 t2 /\ grown b0 b) by (apply (grown_path t2 t' p T P)).
  assert (PinT : forall b, In b p -> pin b t').
  { clear -P. induction P; intros b0 [<-|I]; try (constructor; fail); [destruct I|]. econstructor; eauto. }
  assert (Cov : forall b, In b p -> cwf (pb_count b) /\ forall l, pblock_access b l -> defined_before (map fst (pb_count b)) l).
  { intros b I. destruct (Pin b I) as (b0 & I0 & Gr). split; [|intros l0; apply (grown_covered b0); auto].
    destruct (grown_same _ _ Gr) as (_ & _ & _ & _ & -> & _). apply (G b0 I0). }
  assert (UR : forall v b, pin b t' -> 0 < uses v b -> reads v b).
  { intros v b I U. destruct (grown_in _ _ _ T I) as (b0 & I0 & Gr). eapply used_reads; [apply G, I0|exact Gr|apply Ok, I|exact U]. }
  apply defined_okv. intros v. right.
  destruct (mem v rest) eqn:M; [apply mem_In in M|apply mem_false in M; eapply okv_defined; eassumption].
  (* a variable left over is used in some block *)
  assert (U : exists b, pin b t' /\ 0 < uses v b).
  { pose proof (R1 v M) as Tot. destruct (Forall_Exists_dec (fun b => uses v b = 0) (fun b => Nat.eq_dec (uses v b) 0) (tree_blocks t2)) as [Q|Q].
    - exfalso. rewrite Forall_forall in Q. unfold total in Tot. rewrite (sum_zero v _ Q) in Tot. lia.
    - apply Exists_exists in Q as (b & Ib & Ub). destruct (grown_in_l _ _ _ T (proj2 (pin_blocks b t2) Ib)) as (b' & I' & Gr). exists b'. split; [exact I'|].
      unfold uses in *. destruct (grown_same _ _ Gr) as (_ & _ & _ & _ & -> & _). lia. }
  destruct U as (b & Ib & Ub). destruct (Def v b Ib (UR v b Ib Ub)) as (s & As & C).
  apply reads_uses in As; [|intros b0; apply UR].
  destruct C as [[C1 C2]|[C1 C2]].
  - exfalso. destruct (grown_uses v t' s As t2 T) as (s2 & A2 & Gs). destruct (grown_same _ _ Gs) as (E1 & E2 & E3 & _ & _ & _ & E7).
    apply (R2 v s2 M A2). split; [rewrite <- E1; exact C1|]. eapply (within_definition t2); [rewrite En; exact ND|exact Wf|exact V|].
    apply (only_before v t2 t' T) with (b' := proot s); [rewrite En; exact ND|apply (uses_pin v t2 s2 A2)|exact Gs|exact C2].
  - destruct (Forall_Exists_dec (fun b => uses v b = 0) (fun b => Nat.eq_dec (uses v b) 0) p) as [Q|Q].
    + rewrite Forall_forall in Q. apply (path_okv v p); [|exact A]. intros c Ic. split; [apply Q, Ic|apply Cov, Ic].
    + apply Exists_exists in Q as (c & Ic & Uc). destruct (through v t' s p As P) as (p1 & p2 & -> & Z); [exists c; split; [exact Ic|lia]|].
      apply pblocks_access_app in A as (a & r & -> & A1 & A2). apply okv_app.
      * apply (path_okv v p1); [|exact A1]. intros c0 I0. split; [apply Z, I0|apply Cov, in_app_iff; auto].
      * inversion A2 as [|? ? l1 l2 (li & _ & ->) _]; subst. rewrite <- app_assoc. apply okv_stores. apply filter_In. split; [exact C1|apply mem_In, C2].
Qed.
Print Assumptions registers_written_first.

(* --- concrete cases --- *)
Definition opush (id x : string) : instr :=
  {| i_id := id; i_disasm := "CALLVALUE"; i_inpt := []; i_outpt := [x]; i_comm := false; i_storage := false; i_value := None |}.
Definition gblock (name : string) (phis : list (string * list string)) (entries succs src : list string) (ui : list instr) (declared ids : list string) : pblock :=
  {| pb_name := name; pb_phis := phis; pb_entries := entries; pb_succs := succs; pb_src := src; pb_instrs := ui; pb_call := None;
     pb_live_in := src; pb_declared := declared; pb_ids := ids; pb_reach := []; pb_unreach := []; pb_count := []; pb_copies := []; pb_solve := [] |}.
(** With DUPs of depth 2: [start] has a and q in its stack; [left] pushes two
    values, then loads a; the phi function p of [join] is q or a and is too deep
    in the stack of [join]. *)
Definition ex_tree (right_ids : list string) : ptree :=
  PNode (gblock "start" [] [] ["left"; "right"] ["a"; "q"] [] [] [])
   [PNode (gblock "left" [] [] ["join"] ["a"; "q"] [opush "CALLVALUE_0" "x"; opush "CALLVALUE_1" "y"] ["x"; "y"] ["CALLVALUE_0"; "CALLVALUE_1"; "VGET(a)"; "POP"]) [];
    PNode (gblock "right" [] [] ["join"] ["a"; "q"] [opush "CALLVALUE_0" "z"; opush "CALLVALUE_1" "w"] ["z"; "w"] right_ids) [];
    PNode (gblock "join" [("p", ["q"; "a"])] ["left"; "right"] [] ["u"; "v"; "p"] [] ["p"] ["VGET(p)"; "POP"]) []].
Definition no_loops : forest := {| f_nodes := []; f_edges := [] |}.

Ltac each_block I := match type of I with
  | pin _ _ => apply pin_blocks in I; cbn in I; repeat (destruct I as [<- | I]); [..|destruct I]
  end.
(** [right] pushes two values as well: a and q are defined in [start] and stored
    there or in [left]; p is written by [left] and [right]. *)
Example written_first_example : exists t' rest n k,
  repair_tree 2 5 (fun _ l => l) no_loops ["p"] (ex_tree ["CALLVALUE_0"; "CALLVALUE_1"]) = Ok (t', rest, n, k) /\
  (exists p l, ppath t' p /\ pblocks_access p l /\ l = [Store "a"; Store "q"; Load "a"; Load "q"]) /\
  forall p l, ppath t' p -> pblocks_access p l -> defined_before [] l.
Proof.
  pose proof (registers_written_first 2 5 (fun _ l => l) no_loops ["p"] (ex_tree ["CALLVALUE_0"; "CALLVALUE_1"])) as T.
  set (r := repair_tree 2 5 (fun _ l => l) no_loops ["p"] (ex_tree ["CALLVALUE_0"; "CALLVALUE_1"])) in *.
  vm_compute in r. subst r. eexists _, _, _, _. split; [reflexivity|].
  assert (Sh : forall b, In b ["CALLVALUE_0"; "CALLVALUE_1"; "POP"] -> prefix "VGET" b = false /\ contains "VSET" b = false).
  { intros b I. repeat (destruct I as [<- | I]); [split; reflexivity..|destruct I]. }
  assert (Io : forall id ids l, In id ["CALLVALUE_0"; "CALLVALUE_1"; "POP"] -> ids_access ids l -> ids_access (id :: ids) l)
    by (intros id ids l I A; destruct (Sh id I); constructor; assumption).
  assert (Ig : forall x ids l, ids_access ids l -> ids_access (vget_id x :: ids) (Load x :: l)) by (intros; constructor; assumption).
  assert (Id : forall x p ids l, contains "," x = false -> contains "," p = false -> ids_access ids l -> ids_access (dup_vset_id x p :: ids) (Store x :: l)) by (intros; constructor; assumption).
  assert (A1 : ids_access ["DUP-VSET(a,0)"] [Store "a"]) by (apply (Id "a" "0"); [reflexivity|reflexivity|constructor]).
  assert (A2 : ids_access ["DUP-VSET(q,1)"; "CALLVALUE_0"; "CALLVALUE_1"; "VGET(a)"; "POP"] [Store "q"; Load "a"]).
  { apply (Id "q" "1"); [reflexivity|reflexivity|]. apply Io; [cbn; auto|]. apply Io; [cbn; auto|]. apply (Ig "a"). apply Io; [cbn; auto|constructor]. }
  assert (A3 : ids_access ["CALLVALUE_0"; "CALLVALUE_1"] []) by (apply Io; [cbn; auto|]; apply Io; [cbn; auto|constructor]).
  assert (A4 : ids_access ["VGET(p)"; "POP"] [Load "p"]) by (apply (Ig "p"); apply Io; [cbn; auto|constructor]).
  split.
  { eexists [_; _], _. split; [eapply pp_down; [left; reflexivity|apply pp_here]|]. split.
    - econstructor; [eexists; split; [exact A1|reflexivity]|]. econstructor; [eexists; split; [exact A2|reflexivity]|constructor].
    - reflexivity. }
  eapply T; [intros b l; reflexivity| |intros a b []|reflexivity| |]; clear T.
  - vm_compute. repeat (constructor; [intros Q; repeat (destruct Q as [Q|Q]; [discriminate Q|]); destruct Q|]). constructor.
  - intros b I. each_block I; (split; [eexists; eexists; split; [first [exact A1|exact A2|exact A3|exact A4]|reflexivity]|]); intros v Q; cbn in Q;
      repeat (destruct Q as [<- | Q]; [reflexivity|]); destruct Q.
  - match goal with |- forall v b, pin b ?t0 -> _ => set (tt := t0) end.
    assert (Rd : forall v b, pin b tt -> reads v b -> (v = "a" \/ v = "q") \/ v = "p" /\ pb_name b = "join").
    { intros v b I (l & (li & A & ->) & Q). each_block I; cbn [pb_ids] in A;
        (first [rewrite (ids_access_det _ _ _ A A1) in Q|rewrite (ids_access_det _ _ _ A A2) in Q|rewrite (ids_access_det _ _ _ A A3) in Q|rewrite (ids_access_det _ _ _ A A4) in Q]);
        vm_compute in Q; repeat (destruct Q as [Q|Q]; [try discriminate Q; injection Q as <-; cbn; auto|]); destruct Q. }
    intros v b I R. destruct (Rd v b I R) as [Ev|[-> _]].
    + exists tt. split; [constructor|]. left. split; [destruct Ev as [-> | ->]; cbn; auto|]. split; [constructor|].
      split; [right; split; [reflexivity|destruct Ev as [-> | ->]; cbn; auto]|].
      intros b' I' D. each_block I'; try reflexivity; exfalso; (destruct D as [D|[D _]]; [|apply (f_equal pb_name) in D; discriminate D]); cbn in D;
        repeat (destruct D as [D|D]; [destruct Ev; subst; discriminate|]); destruct D.
    + unfold tt. match goal with |- exists s, all_reads_in _ (PNode ?b0 [?x; ?y; ?z]) s /\ _ =>
        exists z; split; [change (all_reads_in "p" (PNode b0 ([x; y] ++ z :: [])) z)|right; split; left; reflexivity] end.
      constructor; [| |constructor].
      * intros Q. destruct (Rd "p" _ (pin_here _ _) Q) as [[E|E]|[_ E]]; discriminate E.
      * intros t0 b0 I0 P0 Q. assert (In0 : pin b0 tt) by (econstructor; [|exact P0]; cbn in I0 |- *; tauto).
        destruct (Rd "p" b0 In0 Q) as [[E|E]|[_ E]]; try discriminate E.
        cbn in I0. destruct I0 as [<- | [<- | []]]; each_block P0; discriminate E.
Qed.

(** The full property is false: [right] ends with a in the stack, so its copy of a
    is not counted as a load; a is stored only in [left], where it is loaded; but
    a has a register, so the copy at the end of [right] loads it from there, and
    nothing on the way to [right] wrote that register. *)
Theorem repair_reads_unwritten_refuted : exists t t' rest n k p b c d,
  repair_tree 2 5 (fun _ l => l) no_loops ["p"] t = Ok (t', rest, n, Some k) /\
  ppath t' (p ++ [b]) /\ lookup "a" (pb_reach b) = Some (0, 0, true) /\
  collect_copies k (map (fun b => (pb_name b, to_rblock b)) (tree_blocks t')) (to_rblock b) = Ok ([("a", (d, c))], []) /\
  emit_block ["80"; "a0"; "c0"] k (map (fun b => (pb_name b, to_rblock b)) (tree_blocks t')) (to_rblock b) = Ok ["PUSH a0"; "MLOAD"; "PUSH c0"; "MSTORE"] /\
  nth_error ["80"; "a0"; "c0"] c = Some "a0" /\
  forall l x, pblocks_access (p ++ [b]) l -> In (Store x) l -> lookup x (k_color k) <> Some c.
Proof.
  exists (ex_tree []). set (r := repair_tree 2 5 (fun _ l => l) no_loops ["p"] (ex_tree [])). vm_compute in r. subst r.
  eexists _, _, _, _, [_], _, _, _. split; [reflexivity|]. split; [eapply (pp_down _ _ _ [_]); [right; left; reflexivity|apply pp_here]|].
  split; [reflexivity|]. split; [vm_compute; reflexivity|]. split; [vm_compute; reflexivity|]. split; [reflexivity|].
  intros l x A I. cbn [app] in A. inversion A as [|? ? l1 l2 (li1 & A1 & ->) A']; subst. inversion A' as [|? ? l3 l4 (li2 & A2 & ->) A'']; subst. inversion A''; subst.
  cbn in A1, A2. inversion A1; subst. inversion A2; subst. vm_compute in I. destruct I.
Qed.
Print Assumptions repair_reads_unwritten_refuted.
