(** Paths in a component whose variables are defined once. *)
From Verif Require Import Base UtilModel UtilProps LevelProps LiveModel CfgModel CfgSpec CfgProps JumpModel JumpSpec ObjSem ObjSsaSpec ObjSplit.
Open Scope string_scope. Open Scope list_scope.

Lemma NoDup_parts {A} (l1 l2 : list A) : NoDup (l1 ++ l2) -> NoDup l1 /\ (forall x, In x l1 -> ~ In x l2) /\ NoDup l2.
Proof.
  induction l1 as [|a l1 IH]; cbn; intros N; [repeat split; [constructor|intros x []|exact N]|]. inversion N as [|? ? N1 N2]; subst. apply IH in N2 as (A1 & A2 & A3).
  rewrite in_app_iff in N1. split; [constructor; tauto|]. split; [|exact A3]. intros x [<-|I]; [tauto|auto].
Qed.
(** An element of one of the lists of a concatenation without repetitions has one place. *)
Lemma place_once {A B} (f : A -> list B) x : forall l p u q p' u' q', NoDup (flat_map f l) -> l = p ++ u :: q -> l = p' ++ u' :: q' -> In x (f u) -> In x (f u') -> p = p' /\ u = u' /\ q = q'.
Proof.
  intros l p. revert l. induction p as [|a p IH]; intros l u q p' u' q' N E E' I I'.
  - destruct p' as [|a' p']; [cbn in *; split; [reflexivity|]; split; congruence|]. exfalso. subst l. cbn in E'. injection E' as <- Q. subst q. cbn in N.
    apply NoDup_parts in N as (_ & D & _). apply (D x I). apply in_flat_map. exists u'. split; [apply in_app_iff; right; now left|exact I'].
  - destruct p' as [|a' p']; [exfalso|].
    + subst l. cbn in E'. injection E' as <- Q. subst q'. cbn in N. apply NoDup_parts in N as (_ & D & _). apply (D x I'). apply in_flat_map. exists u. split; [apply in_app_iff; right; now left|exact I].
    + subst l. cbn in E'. injection E' as <- Q. cbn in N. apply NoDup_parts in N as (_ & _ & N). destruct (IH _ u q p' u' q' N eq_refl Q I I') as (-> & -> & ->). auto.
Qed.
Lemma lookup_split {A} k (v : A) l : lookup k l = Some v -> exists p q, l = p ++ (k, v) :: q.
Proof. intros H. apply lookup_In, in_split in H. exact H. Qed.
Lemma result_once g b blk p i q b' blk' p' i' q' x : NoDup (results g) -> lookup b (cl_blocks g) = Some blk -> cb_instrs blk = p ++ i :: q -> In x (li_outs i) ->
  lookup b' (cl_blocks g) = Some blk' -> cb_instrs blk' = p' ++ i' :: q' -> In x (li_outs i') -> b = b' /\ blk = blk' /\ p = p' /\ i = i' /\ q = q'.
Proof.
  intros N L E I L' E' I'. destruct (lookup_split _ _ _ L) as (P & Q & S), (lookup_split _ _ _ L') as (P' & Q' & S').
  assert (J : forall bb pp ii qq, cb_instrs bb = pp ++ ii :: qq -> In x (li_outs ii) -> In x (flat_map li_outs (cb_instrs bb))).
  { intros bb pp ii qq Z In0. apply in_flat_map. exists ii. rewrite Z. split; [apply in_app_iff; right; now left|exact In0]. }
  destruct (place_once _ x _ P (b, blk) Q P' (b', blk') Q' N S S') as (_ & U & _); [eapply (J blk); eauto|eapply (J blk'); eauto|]. injection U as -> ->.
  assert (N1 : NoDup (flat_map li_outs (cb_instrs blk'))).
  { unfold results in N. rewrite S' in N. rewrite flat_map_app in N. apply NoDup_parts in N as (_ & _ & N). cbn [flat_map snd] in N. now apply NoDup_parts in N as (N & _ & _). }
  destruct (place_once _ x _ p i q p' i' q' N1 E E' I I') as (-> & -> & ->). auto.
Qed.

Definition suffix {A} (r l : list A) : Prop := exists p, l = p ++ r.
Lemma suffix_refl {A} (l : list A) : suffix l l. Proof. now exists []. Qed.
Lemma suffix_tail {A} (a : A) r l : suffix (a :: r) l -> suffix r l.
Proof. intros (p & ->). exists (p ++ [a]). now rewrite <- app_assoc. Qed.
Lemma suffix_In {A} (r l : list A) a : suffix r l -> In a r -> In a l.
Proof. intros (p & ->) I. apply in_app_iff. now right. Qed.
Lemma suffix_app {A} (r l m : list A) : suffix r l -> suffix r (m ++ l).
Proof. intros (p & ->). exists (m ++ p). now rewrite app_assoc. Qed.

Lemma phis_of_split l : l = fst (phis_of l) ++ snd (phis_of l).
Proof. induction l as [|i l IH]; [reflexivity|]. cbn [phis_of]. destruct (String.eqb (li_op i) "PhiFunction"); [|reflexivity]. destruct (phis_of l). cbn in *. now rewrite <- IH. Qed.
Lemma phis_of_phis l i : In i (fst (phis_of l)) -> li_op i = "PhiFunction".
Proof. induction l as [|j l IH]; [intros []|]. cbn [phis_of]. destruct (String.eqb_spec (li_op j) "PhiFunction"); [|intros []]. destruct (phis_of l). cbn in *. intros [<-|I]; auto. Qed.
Lemma phis_first_rest l i : phis_first l -> In i (snd (phis_of l)) -> li_op i <> "PhiFunction".
Proof.
  intros (ps & os & -> & P & O) I. rewrite phis_of_app in I by exact O. cbn [snd] in I. apply in_app_iff in I as [I|I]; [|auto].
  assert (E : snd (phis_of ps) = []); [|rewrite E in I; destruct I]. clear - P. induction ps as [|p ps IH]; [reflexivity|]. cbn [phis_of].
  rewrite (P p (or_introl eq_refl)). cbn. destruct (phis_of ps) eqn:Q. cbn in *. apply IH. auto.
Qed.

(** Points are within blocks. *)
Lemma reached_point g X b rest : reached_without g X b rest -> exists blk, lookup b (cl_blocks g) = Some blk /\ suffix rest (snd (phis_of (cb_instrs blk))).
Proof.
  induction 1 as [s blk rest S L P|b i rest _ (blk & L & P) _|b blk b' blk' ps rest _ _ L B L' P _].
  - exists blk. split; [exact L|]. rewrite P. apply suffix_refl.
  - exists blk. split; [exact L|]. eapply suffix_tail; eauto.
  - exists blk'. split; [exact L'|]. rewrite P. apply suffix_refl.
Qed.
Lemma reached_weaken g X Y b rest : incl Y X -> reached_without g X b rest -> reached_without g Y b rest.
Proof.
  intros I. induction 1 as [s blk rest S L P|b i rest _ IH N|b blk b' blk' ps rest _ IH L B L' P N].
  - eapply rw_start; eauto.
  - eapply rw_instr; [exact IH|]. intros x J. auto.
  - eapply rw_edge; eauto.
Qed.

Section Strict.
Variables (ob : cobject) (c : option string) (g : clist).
Hypothesis K : component ob c g.
Hypothesis S : ssa ob.
Hypothesis PF : forall b blk, lookup b (cl_blocks g) = Some blk -> phis_first (cb_instrs blk).
Lemma results_once : NoDup (results g).
Proof. pose proof (ssa_once _ S c g K) as N. now apply NoDup_parts in N. Qed.

(** The place right after a definition. *)
Definition after_def (x : string) (b : string) (rest : list linstr) : Prop := exists blk p i q, lookup b (cl_blocks g) = Some blk /\ cb_instrs blk = p ++ i :: q /\ In x (li_outs i)
  /\ rest = if String.eqb (li_op i) "PhiFunction" then snd (phis_of (cb_instrs blk)) else q.
Lemma after_def_once x b rest b' rest' : after_def x b rest -> after_def x b' rest' -> b = b' /\ rest = rest'.
Proof.
  intros (blk & p & i & q & L & E & I & ->) (blk' & p' & i' & q' & L' & E' & I' & ->).
  destruct (result_once g b blk p i q b' blk' p' i' q' x results_once L E I L' E' I') as (-> & -> & -> & -> & ->). auto.
Qed.
Lemma after_instr X b i rest x : reached_without g X b (i :: rest) -> In x (li_outs i) -> after_def x b rest.
Proof.
  intros R I. destruct (reached_point _ _ _ _ R) as (blk & L & (p & Q)). exists blk, (fst (phis_of (cb_instrs blk)) ++ p), i, rest. split; [exact L|].
  split; [rewrite <- app_assoc, <- Q; apply phis_of_split|]. split; [exact I|].
  destruct (String.eqb_spec (li_op i) "PhiFunction") as [O|_]; [|reflexivity]. exfalso. apply (phis_first_rest (cb_instrs blk) i (PF b blk L)); [|exact O]. rewrite Q. apply in_app_iff. right. now left.
Qed.
Lemma after_phis b blk ps rest x : lookup b (cl_blocks g) = Some blk -> phis_of (cb_instrs blk) = (ps, rest) -> In x (flat_map li_outs ps) -> after_def x b rest.
Proof.
  intros L P I. apply in_flat_map in I as (i & I & J). assert (O : li_op i = "PhiFunction") by (apply (phis_of_phis (cb_instrs blk)); now rewrite P).
  pose proof (phis_of_split (cb_instrs blk)) as Q. rewrite P in Q. cbn [fst snd] in Q. destruct (in_split _ _ I) as (p & q & ->). exists blk, p, i, (q ++ rest).
  split; [exact L|]. split; [rewrite Q, <- app_assoc; reflexivity|]. split; [exact J|]. rewrite O, P. reflexivity.
Qed.

(** If [y] is defined by an instruction that reads [a], then every point right
    after the definition of [a] is reached without [y]. *)
Lemma stale a y id blk p call q : lookup id (cl_blocks g) = Some blk -> cb_instrs blk = p ++ call :: q -> In y (li_outs call) -> In a (li_ins call) ->
  li_op call <> "PhiFunction" -> prefix "0x" a = false -> forall b rest, reached_without g [] b rest -> after_def a b rest -> reached_without g [y] b rest.
Proof.
  intros L E Y A NP ZX b rest R D.
  assert (NA : ~ In a (arguments ob c)).
  { destruct D as (blk' & p' & i & q' & L' & E' & I' & _). pose proof (ssa_once _ S c g K) as N. apply NoDup_parts in N as (_ & N & _). intros I. apply (N a I).
    unfold results. apply in_flat_map. exists (b, blk'). split; [now apply lookup_In|]. apply in_flat_map. exists i. split; [cbn [snd]; rewrite E'; apply in_app_iff; right; now left|exact I']. }
  assert (YC : forall X b0 i rest0, reached_without g X b0 (i :: rest0) -> In y (li_outs i) -> i = call).
  { intros X b0 i rest0 R0 I0. destruct (reached_point _ _ _ _ R0) as (blk0 & L0 & (p0 & Q0)).
    assert (E0 : cb_instrs blk0 = (fst (phis_of (cb_instrs blk0)) ++ p0) ++ i :: rest0) by (rewrite <- app_assoc, <- Q0; apply phis_of_split).
    now destruct (result_once g b0 blk0 _ i rest0 id blk p call q y results_once L0 E0 I0 L E Y) as (_ & _ & _ & -> & _). }
  assert (C : forall b0 rest0, reached_without g [] b0 rest0 -> reached_without g [a; y] b0 rest0 \/ exists b1 rest1, after_def a b1 rest1 /\ reached_without g [y] b1 rest1).
  { induction 1 as [s bs r0 Ss Ls Ps|b0 i r0 R0 IH N0|b0 bk b1 bk1 ps r0 R0 IH L0 B0 L1 P1 N0].
    - left. eapply rw_start; eauto.
    - destruct IH as [IH|IH]; [|now right]. assert (NY : ~ In y (li_outs i)).
      { intros I. apply (YC _ _ _ _ R0) in I. subst i. refine (ssa_strict _ S c g b0 (call :: r0) a K _ ZX NA _); [now constructor|]. eapply reached_weaken; [|exact IH]. intros z [<-|[]]. now left. }
      destruct (in_dec string_dec a (li_outs i)) as [I|I].
      + right. exists b0, r0. split; [eapply after_instr; eauto|]. eapply rw_instr; [eapply reached_weaken; [|exact IH]; intros z [<-|[]]; right; now left|]. intros z [<-|[]]. exact NY.
      + left. eapply rw_instr; [exact IH|]. intros z [<-|[<-|[]]]; assumption.
    - destruct IH as [IH|IH]; [|now right]. assert (NY : ~ In y (flat_map li_outs ps)).
      { intros I. apply in_flat_map in I as (i & I1 & I2). assert (O : li_op i = "PhiFunction") by (apply (phis_of_phis (cb_instrs bk1)); now rewrite P1).
        pose proof (phis_of_split (cb_instrs bk1)) as Q. rewrite P1 in Q. cbn [fst snd] in Q. destruct (in_split _ _ I1) as (p1 & q1 & ->). rewrite <- app_assoc in Q. cbn in Q.
        destruct (result_once g b1 bk1 _ i _ id blk p call q y results_once L1 Q I2 L E Y) as (_ & _ & _ & -> & _). contradiction. }
      destruct (in_dec string_dec a (flat_map li_outs ps)) as [I|I].
      + right. exists b1, r0. split; [eapply after_phis; eauto|]. eapply rw_edge; [eapply reached_weaken; [|exact IH]; intros z [<-|[]]; right; now left| | | |exact P1|]; eauto. intros z [<-|[]]. exact NY.
      + left. eapply rw_edge; [exact IH| | | |exact P1|]; eauto. intros z [<-|[<-|[]]]; assumption. }
  destruct (C b rest R) as [H|(b1 & r1 & D1 & H)]; [eapply reached_weaken; [|exact H]; intros z [<-|[]]; right; now left|].
  now destruct (after_def_once _ _ _ _ _ D1 D) as (-> & ->).
Qed.
(** A point is reached without [y], or the instruction that defines [y] is. *)
Lemma before_def X y id blk p call q : lookup id (cl_blocks g) = Some blk -> cb_instrs blk = p ++ call :: q -> In y (li_outs call) -> li_op call <> "PhiFunction" ->
  forall b rest, reached_without g X b rest -> reached_without g (y :: X) b rest \/ reached_without g (y :: X) id (call :: q).
Proof.
  intros L E Y NP. induction 1 as [s bs r0 Ss Ls Ps|b0 i r0 R0 IH N0|b0 bk b1 bk1 ps r0 R0 IH L0 B0 L1 P1 N0].
  - left. eapply rw_start; eauto.
  - destruct IH as [IH|IH]; [|now right]. destruct (in_dec string_dec y (li_outs i)) as [I|I].
    + right. destruct (reached_point _ _ _ _ R0) as (blk0 & L0 & (p0 & Q0)).
      assert (E0 : cb_instrs blk0 = (fst (phis_of (cb_instrs blk0)) ++ p0) ++ i :: r0) by (rewrite <- app_assoc, <- Q0; apply phis_of_split).
      destruct (result_once g b0 blk0 _ i r0 id blk p call q y results_once L0 E0 I L E Y) as (-> & _ & _ & -> & ->). exact IH.
    + left. eapply rw_instr; [exact IH|]. intros z [<-|J]; [exact I|exact (N0 z J)].
  - destruct IH as [IH|IH]; [|now right]. left. eapply rw_edge; [exact IH| | | |exact P1|]; eauto. intros z [<-|J]; [|exact (N0 z J)]. intros I.
    apply in_flat_map in I as (i & I1 & I2). assert (O : li_op i = "PhiFunction") by (apply (phis_of_phis (cb_instrs bk1)); now rewrite P1).
    pose proof (phis_of_split (cb_instrs bk1)) as Q. rewrite P1 in Q. cbn [fst snd] in Q. destruct (in_split _ _ I1) as (p1 & q1 & ->). rewrite <- app_assoc in Q. cbn in Q.
    destruct (result_once g b1 bk1 _ i _ id blk p call q y results_once L1 Q I2 L E Y) as (_ & _ & _ & -> & _). contradiction.
Qed.
End Strict.
