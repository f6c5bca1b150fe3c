(** Soundness of the block validator with respect to the machine. *)
From Coq Require Import Relations.
From Verif Require Import Base Lexical SymExecModel AsmModel MachineSpec
  GreedyTailModel FootprintSpec LexicalProofs.

(* ------------------------------------------------------------------ *)
(** ** Lists, loops *)

Lemma for_each_app {A S} (f : S -> A -> result S) xs ys s :
  for_each f (xs ++ ys) s = do s' <- for_each f xs s; for_each f ys s'.
Proof.
  revert s; induction xs as [|x xs IH]; intros s; simpl; [reflexivity|].
  destruct (f s x); simpl; auto.
Qed.

Lemma map_result_app {A B} (f : A -> result B) xs ys zs :
  map_result f (xs ++ ys) = Ok zs ->
  exists z1 z2, map_result f xs = Ok z1 /\ map_result f ys = Ok z2 /\ zs = z1 ++ z2.
Proof.
  revert zs; induction xs as [|x xs IH]; simpl; intros zs H.
  - exists [], zs; auto.
  - apply bind_ok in H as (y & Hy & H). apply bind_ok in H as (l & Hl & H).
    injection H as <-. destruct (IH _ Hl) as (z1 & z2 & H1 & H2 & ->).
    exists (y :: z1), z2. rewrite Hy, H1. simpl. auto.
Qed.

Lemma check_counts_In ids ui : check_counts ids ui = Ok tt ->
  forall i, In i ui -> i_storage i = true -> contains "GAS" (i_disasm i) = false ->
  count (i_id i) ids = 1.
Proof.
  unfold check_counts. induction ui as [|j ui IH]; simpl; intros H i Hi Hs Hg; [tauto|].
  apply bind_ok in H as ([] & H1 & H2). destruct Hi as [->|Hi]; eauto.
  rewrite Hs, Hg in H1. simpl in H1. apply py_assert_ok in H1.
  apply Nat.eqb_eq in H1. exact H1.
Qed.

Lemma fold_max_ge l : forall x y, y <= x \/ In y l -> y <= fold_left Nat.max l x.
Proof.
  induction l as [|z l IH]; simpl; intros x y H; [destruct H; [lia | tauto]|].
  apply IH. destruct H as [H|[->|H]]; [left; lia | left; lia | auto].
Qed.

Lemma fold_min_le l : forall x y, x <= y \/ In y l -> fold_left Nat.min l x <= y.
Proof.
  induction l as [|z l IH]; simpl; intros x y H; [destruct H; [lia | tauto]|].
  apply IH. destruct H as [H|[->|H]]; [left; lia | left; lia | auto].
Qed.

Lemma py_max_ge l m y : py_max l = Ok m -> In y l -> y <= m.
Proof.
  destruct l as [|x l]; [discriminate|]. cbn [py_max]. intros [= <-] H.
  apply fold_max_ge. destruct H as [->|H]; auto.
Qed.

Lemma py_min_le l m y : py_min l = Ok m -> In y l -> m <= y.
Proof.
  destruct l as [|x l]; [discriminate|]. cbn [py_min]. intros [= <-] H.
  apply fold_min_le. destruct H as [->|H]; auto.
Qed.

Lemma positions_from_In x ids : forall n k,
  In k (positions_from n x ids) <-> n <= k /\ nth_error ids (k - n) = Some x.
Proof.
  induction ids as [|y ids IH]; simpl; intros n k.
  - split; [tauto|]. intros [_ H]. destruct (k - n); discriminate.
  - rewrite in_app_iff, IH. split.
    + intros [H|[H1 H2]].
      * destruct (String.eqb_spec y x) as [->|N]; simpl in H; [|tauto].
        destruct H as [<-|[]]. split; [lia|]. rewrite Nat.sub_diag. reflexivity.
      * split; [lia|]. replace (k - n) with (S (k - S n)) by lia. exact H2.
    + intros [H1 H2]. destruct (Nat.eq_dec k n) as [->|N].
      * rewrite Nat.sub_diag in H2. injection H2 as ->. rewrite String.eqb_refl. simpl; auto.
      * right. split; [lia|]. replace (k - n) with (S (k - S n)) in H2 by lia. exact H2.
Qed.

Lemma positions_In x ids k : In k (positions x ids) <-> nth_error ids k = Some x.
Proof.
  unfold positions. rewrite positions_from_In, Nat.sub_0_r. split; [tauto|]. split; [lia|auto].
Qed.

(** [a] and [b] both occur and every occurrence of [a] precedes every
    occurrence of [b]. *)
Definition before (a b : string) (ids : list string) : Prop :=
  In a ids /\ In b ids /\
  forall m n, nth_error ids m = Some a -> nth_error ids n = Some b -> m < n.

Lemma positions_nonempty x ids : positions x ids <> [] -> In x ids.
Proof.
  intros H. destruct (positions x ids) as [|k l] eqn:E; [congruence|].
  apply (nth_error_In _ k). apply positions_In. rewrite E; simpl; auto.
Qed.

Lemma check_deps_before ids deps : check_deps ids deps = Ok true ->
  forall a b, In (a, b) deps -> before a b ids.
Proof.
  induction deps as [|[a b] deps IH]; simpl; intros H a' b' Hin; [tauto|].
  apply bind_ok in H as (m & Hm & H). apply bind_ok in H as (n & Hn & H).
  destruct (m <? n) eqn:L; [|discriminate]. apply Nat.ltb_lt in L.
  destruct Hin as [[= <- <-]|Hin]; [|auto]. split; [|split].
  - apply positions_nonempty. intros E; rewrite E in Hm; discriminate.
  - apply positions_nonempty. intros E; rewrite E in Hn; discriminate.
  - intros p q Hp Hq. apply positions_In in Hp, Hq.
    pose proof (py_max_ge _ _ _ Hm Hp). pose proof (py_min_le _ _ _ Hn Hq). lia.
Qed.

Lemma before_trans a b c ids : before a b ids -> before b c ids -> before a c ids.
Proof.
  intros (Ha & Hb & H1) (_ & Hc & H2). repeat split; auto.
  intros m n Hm Hn. apply In_nth_error in Hb as (k & Hk).
  specialize (H1 _ _ Hm Hk). specialize (H2 _ _ Hk Hn). lia.
Qed.

Lemma check_deps_trans ids deps a b : check_deps ids deps = Ok true ->
  clos_trans string (fun a b => In (a, b) deps) a b -> before a b ids.
Proof.
  intros H. induction 1 as [x y Hxy|x y z _ IH1 _ IH2].
  - eapply check_deps_before; eauto.
  - eapply before_trans; eauto.
Qed.

Lemma before_split_r a b pre post : before a b (pre ++ b :: post) -> In a pre.
Proof.
  intros (Ha & _ & H).
  apply In_nth_error in Ha as (m & Hm).
  assert (L : m < length pre).
  { apply (H m (length pre)); auto. rewrite nth_error_app2, Nat.sub_diag; auto. }
  rewrite nth_error_app1 in Hm by auto. eapply nth_error_In; eauto.
Qed.

Lemma before_split_l a b pre post : before a b (pre ++ a :: post) -> ~ In b pre.
Proof.
  intros (_ & _ & H) Hb. apply In_nth_error in Hb as (n & Hn).
  assert (n < length pre) by (apply nth_error_Some; congruence).
  assert (length pre < n); [|lia].
  apply (H (length pre) n).
  - rewrite nth_error_app2, Nat.sub_diag; auto.
  - rewrite nth_error_app1; auto.
Qed.

Lemma count_one_split x pre post : count x (pre ++ x :: post) = 1 -> ~ In x pre.
Proof.
  rewrite count_app. simpl. rewrite String.eqb_refl. rewrite count_In. lia.
Qed.

(* ------------------------------------------------------------------ *)
(** ** Well-formed specifications *)

Lemma ids_unique_NoDup ui : forall acc, ids_unique_from acc ui = true ->
  NoDup (map i_id ui) /\ forall x, In x acc -> ~ In x (map i_id ui).
Proof.
  induction ui as [|i ui IH]; simpl; intros acc H; [split; [constructor | auto]|].
  destruct (mem (i_id i) acc) eqn:M; [discriminate|]. apply mem_false in M.
  destruct (IH _ H) as [N D]. split.
  - constructor; auto. apply D. simpl; auto.
  - intros x Hx [E|E]; [subst; auto|]. apply (D x); simpl; auto.
Qed.

Lemma add_vars_spec vars : forall acc acc', add_vars acc vars = Some acc' ->
  NoDup vars /\ (forall x, In x vars -> ~ In x acc) /\ (forall x, In x acc' <-> In x acc \/ In x vars).
Proof.
  induction vars as [|v vars IH]; simpl; intros acc acc' H.
  - injection H as <-. split; [constructor|]. split; [tauto|]. tauto.
  - destruct (mem v acc) eqn:M; [discriminate|]. apply mem_false in M.
    destruct (IH _ _ H) as (N & D & E). split; [|split].
    + constructor; auto. intros Hv. apply (D v Hv). simpl; auto.
    + intros x [<-|Hx]; auto. intros Hx'. apply (D x Hx). simpl; auto.
    + intros x. rewrite E. simpl. tauto.
Qed.

Lemma NoDup_app_intro {A} (l1 l2 : list A) :
  NoDup l1 -> NoDup l2 -> (forall x, In x l1 -> ~ In x l2) -> NoDup (l1 ++ l2).
Proof.
  induction 1 as [|x l1 Hx N1 IH]; simpl; auto. intros N2 D. constructor.
  - rewrite in_app_iff. intros [H|H]; [auto|]. apply (D x); auto.
  - apply IH; auto.
Qed.

Lemma vars_unique_NoDup ui : forall acc, vars_unique_from acc ui = true ->
  NoDup (outputs ui) /\ forall x, In x acc -> ~ In x (outputs ui).
Proof.
  unfold outputs. induction ui as [|i ui IH]; simpl; intros acc H; [split; [constructor | auto]|].
  destruct (add_vars acc (i_outpt i)) as [acc'|] eqn:A; [|discriminate].
  destruct (add_vars_spec _ _ _ A) as (N & D & E). destruct (IH _ H) as (N' & D').
  split.
  - apply NoDup_app_intro; auto. intros x Hx. apply D'. apply E; auto.
  - intros x Hx Hin. apply in_app_iff in Hin as [Hin|Hin]; [apply (D x); auto|].
    apply (D' x); auto. apply E; auto.
Qed.

Lemma NoDup_app_l {A} (l1 l2 : list A) : NoDup (l1 ++ l2) -> NoDup l1.
Proof. induction l1 as [|x l IH]; simpl; [constructor|]. inversion 1; subst. constructor; auto.
  intros Hx; apply H2; apply in_app_iff; auto. Qed.

Lemma NoDup_app_disj {A} (l1 l2 : list A) x : NoDup (l1 ++ l2) -> In x l1 -> ~ In x l2.
Proof.
  induction l1 as [|y l IH]; simpl; [tauto|]. inversion 1; subst. intros [->|Hx].
  - intros Hx; apply H2; apply in_app_iff; auto.
  - auto.
Qed.

Lemma NoDup_app_r {A} (l1 l2 : list A) : NoDup (l1 ++ l2) -> NoDup l2.
Proof. induction l1 as [|x l IH]; simpl; auto. inversion 1; auto. Qed.

Lemma outputs_app p q : outputs (p ++ q) = outputs p ++ outputs q.
Proof. unfold outputs. apply flat_map_app. Qed.

Lemma find_instr_In ui id i : find_instr id ui = Some i -> In i ui /\ i_id i = id.
Proof.
  intros H. apply find_some in H as [H1 H2]. split; auto. apply String.eqb_eq; auto.
Qed.

Lemma find_instr_unique ui i : NoDup (map i_id ui) -> In i ui -> find_instr (i_id i) ui = Some i.
Proof.
  unfold find_instr. induction ui as [|j ui IH]; simpl; [tauto|].
  inversion 1; subst. intros [->|Hi].
  - rewrite String.eqb_refl; auto.
  - destruct (String.eqb_spec (i_id j) (i_id i)) as [E|N]; [|auto].
    exfalso. apply H2. rewrite E. apply in_map; auto.
Qed.

Lemma find_last_unique ui i : NoDup (map i_id ui) -> In i ui ->
  find_last_instr (i_id i) ui = Some i.
Proof.
  intros N H. unfold find_last_instr. apply find_instr_unique.
  - rewrite map_rev. apply NoDup_rev; auto.
  - rewrite <- in_rev; auto.
Qed.

Lemma find_last_none ui id : (forall i, In i ui -> i_id i <> id) -> find_last_instr id ui = None.
Proof.
  intros H. unfold find_last_instr, find_instr. destruct (find _ (rev ui)) as [i|] eqn:E; auto.
  apply find_some in E as [E1 E2]. apply in_rev in E1. apply String.eqb_eq in E2.
  exfalso; eapply H; eauto.
Qed.

Lemma nth_split_at {A} (l : list A) n x : nth_error l n = Some x ->
  l = firstn n l ++ x :: skipn (S n) l.
Proof.
  revert n; induction l as [|y l IH]; intros [|n]; simpl; try discriminate.
  - intros [= ->]; auto.
  - intros H. f_equal. apply IH; auto.
Qed.

Lemma firstn_S {A} (l : list A) n x : nth_error l n = Some x -> firstn (S n) l = firstn n l ++ [x].
Proof.
  revert n; induction l as [|y l IH]; intros [|n]; simpl; try discriminate.
  - intros [= ->]; auto.
  - intros H. f_equal. apply IH; auto.
Qed.

Lemma defs_before_uses_nth p n i : defs_before_uses p = true -> nth_error p n = Some i ->
  forall x, In x (i_inpt i) -> ~ In x (outputs (skipn n p)).
Proof.
  revert n; induction p as [|j p IH]; intros [|n]; simpl; try discriminate;
    rewrite andb_true_iff, forallb_forall; intros [H1 H2] E x Hx.
  - injection E as ->. specialize (H1 _ Hx). rewrite negb_true_iff in H1. apply mem_false; auto.
  - eapply IH; eauto.
Qed.

(* ------------------------------------------------------------------ *)
(** ** Program-order execution *)
Section Prog.
Context {V Loc LV : Type}.
Variable sem : semantics V Loc LV.
Variable fp : footprint V Loc.
Variable p : list instr.
Variable e0 : string -> V.
Variable w0 : Loc -> LV.

Definition state_at (k : nat) : (string -> V) * (Loc -> LV) :=
  exec_prog sem (firstn k p) (e0, w0).
Definition env_at k := fst (state_at k).
Definition world_at k := snd (state_at k).
Definition envf := fst (exec_prog sem p (e0, w0)).

Hypothesis Hrsp : forall i, In i p -> respects sem fp i.
Hypothesis Hnd : NoDup (outputs p).
Hypothesis Hdef : defs_before_uses p = true.

Lemma state_at_S k i : nth_error p k = Some i ->
  state_at (S k) = exec_op sem i (state_at k).
Proof.
  intros H. unfold state_at. rewrite (firstn_S _ _ _ H). unfold exec_prog.
  rewrite fold_left_app. reflexivity.
Qed.

Lemma state_at_end k : length p <= k -> state_at k = exec_prog sem p (e0, w0).
Proof. intros H. unfold state_at. rewrite firstn_all2; auto. Qed.

Lemma bind_vars_notin (e : string -> V) xs vs x : ~ In x xs -> bind_vars e xs vs x = e x.
Proof.
  revert vs; induction xs as [|y xs IH]; intros [|v vs]; simpl; auto. intros H.
  destruct (String.eqb_spec x y) as [->|N]; [exfalso; auto|]. apply IH; auto.
Qed.

Lemma bind_vars_map (e : string -> V) xs vs : NoDup xs -> length vs = length xs ->
  map (bind_vars e xs vs) xs = vs.
Proof.
  revert vs; induction xs as [|y xs IH]; intros [|v vs]; simpl; try discriminate; auto.
  inversion 1; subst. intros [= L]. rewrite String.eqb_refl. f_equal.
  transitivity (map (bind_vars e xs vs) xs); [|auto]. apply map_ext_in. intros x Hx.
  destruct (String.eqb_spec x y) as [->|N]; [exfalso; auto | auto].
Qed.

Lemma exec_op_notin i ew x : ~ In x (i_outpt i) -> fst (exec_op sem i ew) x = fst ew x.
Proof.
  intros H. destruct ew as [e w]. unfold exec_op.
  destruct (op_denote sem i (map e (i_inpt i)) w) as [outs w']. simpl. apply bind_vars_notin; auto.
Qed.

Lemma exec_prog_notin q ew x : ~ In x (outputs q) -> fst (exec_prog sem q ew) x = fst ew x.
Proof.
  revert ew; induction q as [|i q IH]; intros ew H; simpl; auto.
  unfold outputs in H; simpl in H. rewrite in_app_iff in H.
  unfold exec_prog in *. simpl. rewrite IH by auto. apply exec_op_notin; auto.
Qed.

Lemma env_stable k x : ~ In x (outputs (skipn k p)) -> env_at k x = envf x.
Proof.
  intros H. unfold envf, env_at, state_at.
  assert (E : exec_prog sem p (e0, w0) = exec_prog sem (skipn k p) (exec_prog sem (firstn k p) (e0, w0))).
  { unfold exec_prog. rewrite <- fold_left_app, firstn_skipn. reflexivity. }
  rewrite E. symmetry. apply exec_prog_notin; auto.
Qed.

Lemma args_stable k i : nth_error p k = Some i ->
  map (env_at k) (i_inpt i) = map envf (i_inpt i).
Proof.
  intros H. apply map_ext_in. intros x Hx. apply env_stable.
  eapply defs_before_uses_nth; eauto.
Qed.

Lemma outs_nodup k i : nth_error p k = Some i -> NoDup (i_outpt i) /\
  forall x, In x (i_outpt i) -> ~ In x (outputs (skipn (S k) p)).
Proof.
  intros H. pose proof (nth_split_at _ _ _ H) as E. pose proof Hnd as N.
  rewrite E, outputs_app in N. apply NoDup_app_r in N.
  unfold outputs in N; cbn [flat_map] in N. split.
  - eapply NoDup_app_l; eauto.
  - intros x Hx. eapply NoDup_app_disj; eauto.
Qed.

Lemma outs_final k i : nth_error p k = Some i ->
  fst (op_denote sem i (map envf (i_inpt i)) (world_at k)) = map envf (i_outpt i).
Proof.
  intros H. destruct (outs_nodup _ _ H) as [N D].
  assert (Hi : In i p) by (eapply nth_error_In; eauto).
  transitivity (map (env_at (S k)) (i_outpt i)).
  - unfold env_at. rewrite (state_at_S _ _ H). unfold exec_op.
    pose proof (args_stable _ _ H) as A. unfold env_at in A. unfold world_at.
    destruct (state_at k) as [e w]. cbn [fst snd] in *. rewrite A.
    pose proof (rsp_nout _ _ _ (Hrsp i Hi) (map envf (i_inpt i)) w) as L.
    rewrite map_length in L. specialize (L eq_refl).
    destruct (op_denote sem i (map envf (i_inpt i)) w) as [outs w'].
    cbn [fst snd] in *. rewrite bind_vars_map; auto.
  - apply map_ext_in. intros x Hx. apply env_stable. auto.
Qed.

Lemma world_S k i : nth_error p k = Some i ->
  world_at (S k) = snd (op_denote sem i (map envf (i_inpt i)) (world_at k)).
Proof.
  intros H. unfold world_at at 1. rewrite (state_at_S _ _ H). unfold exec_op.
  pose proof (args_stable _ _ H) as A. unfold env_at in A. unfold world_at.
  destruct (state_at k) as [e w]. cbn [fst snd] in *. rewrite A.
  destruct (op_denote sem i (map envf (i_inpt i)) w) as [outs w']. reflexivity.
Qed.

(** No writer of [l] in between: same contents. *)
Lemma world_same l k1 k2 : k1 <= k2 -> k2 <= length p ->
  (forall j i, k1 <= j < k2 -> nth_error p j = Some i ->
     writes fp i (map envf (i_inpt i)) l = false) ->
  world_at k1 l = world_at k2 l.
Proof.
  intros H. induction H as [|k2 H IH]; intros L Hw; [reflexivity|].
  rewrite IH; [|lia|intros; apply (Hw j); auto; lia].
  destruct (nth_error p k2) as [i|] eqn:E.
  - rewrite (world_S _ _ E). symmetry.
    apply (rsp_frame _ _ _ (Hrsp i ltac:(eapply nth_error_In; eauto))). apply (Hw k2); auto; lia.
  - apply nth_error_None in E. lia.
Qed.

(* ---------------------------------------------------------------- *)
(** ** The world invariant of the emitted code *)
Variable ids : list string.
Variable deps : list (string * string).
Hypothesis Hids : NoDup (map i_id p).
Hypothesis Hdeps : check_deps ids deps = Ok true.
Hypothesis Hcnt : check_counts ids p = Ok tt.
Hypothesis Hcover : deps_cover fp deps p envf.

Definition args (i : instr) := map envf (i_inpt i).

Definition world_inv (pre : list string) (w : Loc -> LV) : Prop :=
  forall l, exists k, k <= length p /\ w l = world_at k l /\
    forall j i, nth_error p j = Some i -> writes fp i (args i) l = true ->
      (j < k <-> In (i_id i) pre).

Lemma id_inj n m i j : nth_error p n = Some i -> nth_error p m = Some j -> i_id i = i_id j -> n = m.
Proof.
  intros Hn Hm E.
  assert (L : n < length (map i_id p)) by (rewrite map_length; apply nth_error_Some; congruence).
  apply (proj1 (NoDup_nth_error (map i_id p)) Hids n m L).
  rewrite (map_nth_error i_id _ _ Hn), (map_nth_error i_id _ _ Hm), E. reflexivity.
Qed.

Lemma writer_once i l : In i p -> writes fp i (args i) l = true -> count (i_id i) ids = 1.
Proof.
  intros Hi Hw. destruct (rsp_flag _ _ _ (Hrsp i Hi) _ _ Hw) as [F G].
  eapply check_counts_In; eauto.
Qed.

(** Location [l] is read or written by operation [i] at position [j]: when
    [i] is emitted, the writers of [l] emitted so far are those before [j]. *)
Lemma touched_cut pre post j i l : ids = pre ++ i_id i :: post -> nth_error p j = Some i ->
  reads fp i (args i) l \/ writes fp i (args i) l = true ->
  forall j' i', nth_error p j' = Some i' -> writes fp i' (args i') l = true ->
  (j' < j <-> In (i_id i') pre).
Proof.
  intros E Hj T j' i' Hj' W'.
  assert (Hi' : In i' p) by (eapply nth_error_In; eauto).
  destruct (lt_eq_lt_dec j' j) as [[L|L]|L].
  - split; [intros _|auto].
    apply (before_split_r _ (i_id i) pre post). rewrite <- E.
    eapply check_deps_trans; [exact Hdeps|]. apply (Hcover j' j i' i); auto.
    exists l. left. auto.
  - subst j'. rewrite Hj in Hj'. injection Hj' as <-. split; [lia|]. intros Hin. exfalso.
    pose proof (writer_once i l Hi' W') as C. rewrite E in C.
    apply (count_one_split _ _ _ C Hin).
  - split; [lia|]. intros Hin. exfalso.
    apply (before_split_l (i_id i) (i_id i') pre post); auto. rewrite <- E.
    eapply check_deps_trans; [exact Hdeps|]. apply (Hcover j j' i i'); auto.
    exists l. destruct T as [T|T]; [right; auto | left; auto].
Qed.

Lemma touched_world pre post j i l w : ids = pre ++ i_id i :: post -> nth_error p j = Some i ->
  reads fp i (args i) l \/ writes fp i (args i) l = true ->
  world_inv pre w -> w l = world_at j l.
Proof.
  intros E Hj T Inv. destruct (Inv l) as (k & Lk & Ew & C). rewrite Ew.
  pose proof (touched_cut pre post j i l E Hj T) as D.
  assert (Lj : j < length p) by (apply nth_error_Some; congruence).
  destruct (le_ge_dec k j) as [L|L].
  - apply world_same; auto; [lia|]. intros j' i' R Hj'.
    destruct (writes fp i' (map envf (i_inpt i')) l) eqn:W; auto.
    assert (j' < k) by (apply (C j' i'); auto; apply (D j' i'); auto; lia). lia.
  - symmetry. apply world_same; auto. intros j' i' R Hj'.
    destruct (writes fp i' (map envf (i_inpt i')) l) eqn:W; auto.
    assert (j' < j) by (apply (D j' i'); auto; apply (C j' i'); auto; lia). lia.
Qed.

Lemma world_step pre post j i w : ids = pre ++ i_id i :: post -> nth_error p j = Some i ->
  world_inv pre w ->
  fst (op_denote sem i (args i) w) = map envf (i_outpt i) /\
  world_inv (pre ++ [i_id i]) (snd (op_denote sem i (args i) w)).
Proof.
  intros E Hj Inv.
  assert (Hi : In i p) by (eapply nth_error_In; eauto).
  assert (A : forall l, reads fp i (args i) l -> w l = world_at j l)
    by (intros l Hl; eapply touched_world; eauto).
  split.
  - rewrite <- (outs_final _ _ Hj). apply (rsp_outs _ _ _ (Hrsp i Hi)). exact A.
  - intros l. destruct (writes fp i (args i) l) eqn:W.
    + exists (S j). split; [apply nth_error_Some; congruence|]. split.
      * rewrite (world_S _ _ Hj). apply (rsp_writes _ _ _ (Hrsp i Hi)); auto.
      * intros j' i' Hj' W'. rewrite in_app_iff. simpl.
        rewrite <- (touched_cut pre post j i l E Hj (or_intror W) j' i' Hj' W').
        split; [intros L|].
        -- destruct (Nat.eq_dec j' j) as [->|N]; [|left; lia].
           rewrite Hj in Hj'. injection Hj' as <-. auto.
        -- intros [L|[L|[]]]; [lia|]. assert (j = j') by (eapply id_inj; eauto). lia.
    + destruct (Inv l) as (k & Lk & Ew & C). exists k. split; auto. split.
      * rewrite (rsp_frame _ _ _ (Hrsp i Hi)); auto.
      * intros j' i' Hj' W'. rewrite in_app_iff. simpl. rewrite (C j' i' Hj' W').
        split; auto. intros [H|[H|[]]]; auto. exfalso.
        assert (j = j') by (eapply id_inj; eauto). subst j'.
        rewrite Hj in Hj'. injection Hj' as <-. congruence.
Qed.

Lemma world_inv_init : world_inv [] w0.
Proof.
  intros l. exists 0. split; [lia|]. split; [reflexivity|]. intros; simpl. split; [lia|tauto].
Qed.

Lemma world_inv_final w : world_inv ids w -> forall l, w l = snd (exec_prog sem p (e0, w0)) l.
Proof.
  intros Inv l. destruct (Inv l) as (k & Lk & Ew & C). rewrite Ew.
  rewrite <- (state_at_end (length p)) by auto. apply world_same; auto.
  intros j i R Hj. destruct (writes fp i (map envf (i_inpt i)) l) eqn:W; auto.
  assert (Hi : In i p) by (eapply nth_error_In; eauto).
  pose proof (writer_once i l Hi W) as Q.
  assert (j < k); [|lia]. apply (C j i); auto. apply count_In. lia.
Qed.
End Prog.
