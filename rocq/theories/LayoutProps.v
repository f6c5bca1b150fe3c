(** C13, C14, C16: combining layouts, output layouts, duplicate names. *)
From Coq Require Import Sorting.Permutation.
From Verif Require Import Base UtilModel UtilProps WebProps GraphProps LayoutModel.
Open Scope string_scope. Open Scope list_scope.

(* --- specification: filling holes --- *)
(** [filled l vs r]: [r] is [l] where some holes received the values [vs], in
    order, and everything else is unchanged. *)
Inductive filled {A} : list (option A) -> list A -> list (option A) -> Prop :=
| f_nil : filled [] [] []
| f_keep x l vs r : filled l vs r -> filled (Some x :: l) vs (Some x :: r)
| f_put v l vs r : filled l vs r -> filled (None :: l) (v :: vs) (Some v :: r)
| f_hole l vs r : filled l vs r -> filled (None :: l) vs (None :: r).

Lemma filled_app {A} (l1 l2 : list (option A)) v1 v2 r1 r2 : filled l1 v1 r1 -> filled l2 v2 r2 -> filled (l1 ++ l2) (v1 ++ v2) (r1 ++ r2).
Proof. induction 1; simpl; intros; try constructor; auto. Qed.
Lemma filled_rev {A} (l : list (option A)) vs r : filled l vs r -> filled (rev l) (rev vs) (rev r).
Proof.
  induction 1; simpl.
  - constructor.
  - rewrite <- (app_nil_r (rev vs)). apply filled_app; [assumption|repeat constructor].
  - apply filled_app; [assumption|repeat constructor].
  - rewrite <- (app_nil_r (rev vs)). apply filled_app; [assumption|repeat constructor].
Qed.
Lemma filled_refl {A} (l : list (option A)) : filled l [] l.
Proof. induction l as [|[x|] l IH]; constructor; auto. Qed.
Lemma filled_somes {A} (l : list (option A)) vs r : filled l vs r -> Permutation (somes r) (somes l ++ vs).
Proof.
  induction 1; simpl; auto.
  rewrite IHfilled. apply Permutation_middle.
Qed.
Lemma filled_holes {A} (l : list (option A)) vs r : filled l vs r -> holes l = holes r + length vs.
Proof. unfold holes. induction 1; simpl; lia. Qed.
Lemma filled_length {A} (l : list (option A)) vs r : filled l vs r -> length r = length l.
Proof. induction 1; simpl; lia. Qed.
Lemma somes_app {A} (l1 l2 : list (option A)) : somes (l1 ++ l2) = somes l1 ++ somes l2.
Proof. unfold somes. now rewrite flat_map_app. Qed.
Lemma somes_map {A} (l : list A) : somes (map Some l) = l.
Proof. induction l as [|x l IH]; [reflexivity|]. unfold somes in *. simpl. now rewrite IH. Qed.
Lemma holes_app {A} (l1 l2 : list (option A)) : holes (l1 ++ l2) = holes l1 + holes l2.
Proof. unfold holes. now rewrite filter_app, app_length. Qed.
Lemma holes_map {A} (l : list A) : holes (map Some l) = 0.
Proof. unfold holes. induction l; simpl; auto. Qed.
Lemma holes_rev {A} (l : list (option A)) : holes (rev l) = holes l.
Proof. induction l as [|x l IH]; [reflexivity|]. cbn [rev]. rewrite holes_app, IH. unfold holes. simpl. destruct (is_none x); simpl; lia. Qed.
Lemma no_holes_map {A} (l : list (option A)) : holes l = 0 -> l = map Some (somes l).
Proof. induction l as [|[x|] l IH]; unfold holes in *; simpl; intros H; [reflexivity| |discriminate]. unfold somes in *. f_equal. auto. Qed.

Lemma fill_holes_spec {A} : forall (ro : list (option A)) rs o r, fill_holes ro rs = (o, r) ->
  exists used, rs = used ++ r /\ filled ro used o
    /\ exists o1 o2, o = o1 ++ o2 /\ holes o1 = 0 /\ o2 = skipn (length o1) ro /\ (o2 <> [] -> r = []).
Proof.
  induction ro as [|[x|] ro IH]; intros rs o r E; simpl in E.
  - injection E as <- <-. exists []. split; [reflexivity|]. split; [constructor|]. exists [], []. repeat split; congruence.
  - destruct rs as [|s rs].
    + injection E as <- <-. exists []. split; [reflexivity|]. split; [apply filled_refl|]. exists [], (Some x :: ro). repeat split; auto.
    + destruct (fill_holes ro (s :: rs)) as [o' r'] eqn:E'. injection E as <- <-. destruct (IH _ _ _ E') as (used & -> & F & o1 & o2 & -> & H & -> & R).
      exists used. split; [reflexivity|]. split; [constructor; exact F|]. exists (Some x :: o1), (skipn (length o1) ro). repeat split; auto.
  - destruct rs as [|s rs].
    + injection E as <- <-. exists []. split; [reflexivity|]. split; [apply filled_refl|]. exists [], (None :: ro). repeat split; auto.
    + destruct (fill_holes ro rs) as [o' r'] eqn:E'. injection E as <- <-. destruct (IH _ _ _ E') as (used & -> & F & o1 & o2 & -> & H & -> & R).
      exists (s :: used). split; [reflexivity|]. split; [constructor; exact F|]. exists (Some s :: o1), (skipn (length o1) ro). repeat split; auto.
Qed.

(** Combining keeps every fixed element in its place, puts the last of the new
    elements, in their order, into the deepest holes, and stacks the others, in
    their order, on top; only if no hole is left are there others. *)
Theorem combine_with_order_correct : forall (original : list (option string)) second, exists above used r,
  second = above ++ used /\ combine_lists_with_order original second = map Some above ++ r /\ filled original used r
  /\ (exists r1 r2, r = r1 ++ r2 /\ r1 = firstn (length r1) original /\ holes r2 = 0)
  /\ (above = [] \/ holes r = 0).
Proof.
  intros original second. unfold combine_lists_with_order. destruct (fill_holes (rev original) (rev second)) as [o r] eqn:E.
  destruct (fill_holes_spec _ _ _ _ E) as (used & Es & F & o1 & o2 & -> & H & Eo & R).
  exists (rev r), (rev used), (rev (o1 ++ o2)). split; [apply (f_equal (@rev string)) in Es; rewrite rev_involutive, rev_app_distr in Es; exact Es|].
  split; [reflexivity|]. split; [apply filled_rev in F; rewrite rev_involutive in F; exact F|]. split.
  - exists (rev o2), (rev o1). split; [apply rev_app_distr|]. split; [|now rewrite holes_rev].
    assert (L : length (o1 ++ o2) = length original) by (rewrite (filled_length _ _ _ F), rev_length; reflexivity).
    rewrite app_length in L. rewrite Eo at 1. rewrite rev_length.
    assert (G : forall (l : list (option string)) n, rev (skipn n l) = firstn (length l - n) (rev l)).
    { clear. intros l n. rewrite <- (firstn_skipn n l) at 3. rewrite rev_app_distr, firstn_app, rev_length, skipn_length, Nat.sub_diag.
      simpl. rewrite app_nil_r. symmetry. apply firstn_all2. rewrite rev_length, skipn_length. lia. }
    rewrite G, rev_involutive, rev_length. f_equal. lia.
  - destruct o2 as [|x o2]; [right; rewrite app_nil_r, holes_rev; exact H|left; rewrite R by discriminate; reflexivity].
Qed.
Print Assumptions combine_with_order_correct.

(** With at least as many new elements as holes: no hole is left, and the
    result has exactly the fixed and the new elements. *)
Theorem combine_with_order_complete : forall (original : list (option string)) second, holes original <= length second ->
  exists l, combine_lists_with_order original second = map Some l /\ Permutation l (somes original ++ second).
Proof.
  intros original second H. destruct (combine_with_order_correct original second) as (above & used & r & -> & -> & F & _ & D).
  assert (Hr : holes r = 0).
  { destruct D as [->|D]; [|exact D]. apply filled_holes in F. simpl in H. lia. }
  exists (above ++ somes r). rewrite map_app, <- (no_holes_map r Hr). split; [reflexivity|].
  rewrite (filled_somes _ _ _ F). rewrite !app_assoc. apply Permutation_app_tail. apply Permutation_app_comm.
Qed.
Print Assumptions combine_with_order_complete.

(* --- removing holes by moving the topmost elements --- *)
Lemma somes_set_nth {A} (x : A) : forall l k, nth_error l k = Some None -> Permutation (somes (set_nth k (Some x) l)) (x :: somes l).
Proof.
  induction l as [|y l IH]; intros [|k] H; try discriminate H; cbn [set_nth].
  - injection H as ->. reflexivity.
  - change (somes (y :: ?z)) with ((match y with Some a => [a] | None => [] end) ++ somes z). rewrite (IH k H).
    symmetry. apply Permutation_middle.
Qed.
Lemma skipn_set_nth {A} (v : A) : forall l i k, i <= k -> skipn i (set_nth k v l) = set_nth (k - i) v (skipn i l).
Proof.
  induction l as [|x l IH]; intros [|i] [|k] H; try reflexivity; try lia; cbn [skipn set_nth].
  - destruct (S k - S i); reflexivity.
  - replace (S k - S i) with (k - i) by lia. apply IH. lia.
Qed.
Lemma skipn_nth {A} (l : list A) i x : nth_error l i = Some x -> skipn i l = x :: skipn (i + 1) l.
Proof. revert i; induction l as [|y l IH]; intros [|i] H; try discriminate H; [injection H as ->; reflexivity|]. apply IH in H. simpl. exact H. Qed.
Lemma nth_skipn {A} (l : list A) i k : nth_error (skipn i l) k = nth_error l (i + k).
Proof. revert l; induction i as [|i IH]; intros [|x l]; simpl; auto; [destruct k; reflexivity]. Qed.

Lemma merge_loop_spec {A} : forall fuel i j' (l : list (option A)), i <= j' -> j' <= length l -> j' - i < fuel ->
  (forall k, j' <= k -> nth_error l k <> Some None) ->
  exists r, merge_loop fuel i j' l = Ok (map Some r) /\ Permutation r (somes (skipn i l)).
Proof.
  induction fuel as [|fuel IH]; intros i j' l Hi Hj Hf Hk; [lia|]. cbn [merge_loop].
  destruct (Nat.ltb_spec i j') as [Lt|Ge].
  - destruct (nth_error l i) as [oi|] eqn:Ei; [|apply nth_error_None in Ei; lia].
    destruct (nth_error l (j' - 1)) as [oj|] eqn:Ej; [|apply nth_error_None in Ej; lia].
    destruct oi as [x|]; [destruct oj as [y|]|].
    + destruct (IH i (j' - 1) l) as (r & E & P); try lia.
      * intros k Hk'. destruct (Nat.eq_dec k (j' - 1)) as [->|]; [congruence|apply Hk; lia].
      * exists r. auto.
    + assert (i <> j' - 1) by congruence.
      destruct (IH (i + 1) (j' - 1) (set_nth (j' - 1) (Some x) l)) as (r & E & P).
      * lia.
      * rewrite set_nth_length. lia.
      * lia.
      * intros k Hk'. destruct (Nat.eq_dec (j' - 1) k) as [<-|N].
        -- rewrite nth_set_nth_same by lia. discriminate.
        -- rewrite nth_set_nth_other by exact N. apply Hk. lia.
      * exists r. split; [exact E|]. rewrite P. rewrite skipn_set_nth by lia. rewrite somes_set_nth; [|rewrite nth_skipn, <- Ej; f_equal; lia].
        rewrite (skipn_nth _ _ _ Ei). reflexivity.
    + destruct (IH (i + 1) j' l) as (r & E & P); try lia; [exact Hk|]. exists r. split; [exact E|]. rewrite (skipn_nth _ _ _ Ei). exact P.
  - exists (somes (skipn i l)). split; [|reflexivity]. f_equal. apply no_holes_map. unfold holes.
    assert (G : forall m : list (option A), (forall k, nth_error m k <> Some None) -> length (filter is_none m) = 0).
    { clear. induction m as [|[x|] m IHm]; intros H; [reflexivity| |].
      - simpl. apply IHm. intros k. apply (H (S k)).
      - exfalso. apply (H 0). reflexivity. }
    apply G. intros k. rewrite nth_skipn. apply Hk. lia.
Qed.
Lemma merge_spec {A} (l : list (option A)) : exists r, merge_list_swapping_topmost l = Ok (map Some r) /\ Permutation r (somes l).
Proof.
  unfold merge_list_swapping_topmost. destruct (merge_loop_spec (S (length l)) 0 (length l) l) as (r & E & P); try lia.
  - intros k Hk. assert (nth_error l k = None) as -> by (now apply nth_error_None). discriminate.
  - exists r. auto.
Qed.

Definition score (l : list (option string)) : Z := (Z.of_nat (holes l) - Z.of_nat (length (somes l)))%Z.
Lemma longest_none_spec : forall ro done current bc bi,
  current = score done ->
  (bi <= length ro + length done)%nat -> length ro <= bi -> bc = score (skipn bi (rev ro ++ done)) ->
  (forall k, length ro <= k -> k <= length ro + length done -> (score (skipn k (rev ro ++ done)) <= bc)%Z /\ (bi < k -> (score (skipn k (rev ro ++ done)) < bc)%Z)) ->
  forall i c, longest_none ro current bc bi = (i, c) ->
  i <= length ro + length done /\ c = score (skipn i (rev ro ++ done))
  /\ forall k, k <= length ro + length done -> (score (skipn k (rev ro ++ done)) <= c)%Z /\ (i < k -> (score (skipn k (rev ro ++ done)) < c)%Z).
Proof.
  induction ro as [|o ro IH]; intros done current bc bi Hc Hb Hl Hs Hk i c E; cbn [longest_none] in E.
  - injection E as <- <-. split; [exact Hb|]. split; [exact Hs|]. intros k Lk. apply Hk; [simpl; lia|exact Lk].
  - cbn [rev length] in *. rewrite <- app_assoc in *. cbn [app] in *. set (done' := o :: done).
    assert (Sc : (if is_none o then (current + 1)%Z else (current - 1)%Z) = score done').
    { unfold done', score, holes in *. cbn [filter]. change (somes (o :: done)) with ((match o with Some a => [a] | None => [] end) ++ somes done).
      destruct o; cbn [is_none app length]; lia. }
    rewrite Sc in E. assert (Sk : skipn (length ro) (rev ro ++ done') = done').
    { rewrite skipn_app, rev_length, Nat.sub_diag. rewrite skipn_all2 by (rewrite rev_length; lia). reflexivity. }
    assert (Ld : length done' = S (length done)) by reflexivity.
    destruct (Z.ltb_spec bc (score done')) as [Lt|Ge].
    + specialize (IH done' (score done') (score done') (length ro) eq_refl). fold done' in Hk, Hs.
      assert (X : i <= length ro + length done' /\ c = score (skipn i (rev ro ++ done')) /\
        forall k, k <= length ro + length done' -> (score (skipn k (rev ro ++ done')) <= c)%Z /\ (i < k -> (score (skipn k (rev ro ++ done')) < c)%Z)).
      { apply IH; try lia; auto.
        - rewrite Sk. reflexivity.
        - intros k K1 K2. destruct (Nat.eq_dec k (length ro)) as [->|Nk]; [rewrite Sk; split; [apply Z.le_refl|intros Q; exfalso; exact (Nat.lt_irrefl _ Q)]|]. destruct (Hk k) as [A _]; [lia|lia|]. split; [lia|intros _; lia]. }
      rewrite Ld in X. replace (length ro + S (length done)) with (S (length ro + length done)) in X by lia. exact X.
    + specialize (IH done' (score done') bc bi eq_refl).
      assert (X : i <= length ro + length done' /\ c = score (skipn i (rev ro ++ done')) /\
        forall k, k <= length ro + length done' -> (score (skipn k (rev ro ++ done')) <= c)%Z /\ (i < k -> (score (skipn k (rev ro ++ done')) < c)%Z)).
      { apply IH; try lia; auto.
        intros k K1 K2. destruct (Nat.eq_dec k (length ro)) as [->|Nk]; [rewrite Sk; split; [exact Ge|intros Q; exfalso; lia]|]. apply Hk; lia. }
      rewrite Ld in X. replace (length ro + S (length done)) with (S (length ro + length done)) in X by lia. exact X.
Qed.

(** The suffix given up as junk is the one with the largest excess of holes over
    elements, and the shortest such one. *)
Theorem junk_suffix_optimal : forall l i c, find_longest_none_sequence l = (i, c) ->
  i <= length l /\ c = score (skipn i l)
  /\ forall k, k <= length l -> (score (skipn k l) <= c)%Z /\ (i < k -> (score (skipn k l) < c)%Z).
Proof.
  intros l i c E. unfold find_longest_none_sequence in E.
  pose proof (longest_none_spec (rev l) [] 0%Z 0%Z (length l) eq_refl) as S. rewrite rev_length, rev_involutive, app_nil_r, Nat.add_0_r in S.
  apply S; auto.
  - rewrite skipn_all. reflexivity.
  - intros k K1 K2. assert (k = length l) as -> by lia. rewrite skipn_all. split; [reflexivity|lia].
Qed.
Print Assumptions junk_suffix_optimal.

(** Combining with junk allowed or not: no hole is left and exactly the fixed
    and the new elements are there; the junk is a suffix of the original. *)
Theorem combine_with_junk_complete : forall original second junk, exists l k,
  combine_lists_with_junk original second junk = Ok (map Some l, k) /\ Permutation l (somes original ++ second)
  /\ k <= length original /\ (junk = false -> k = 0).
Proof.
  intros original second junk. unfold combine_lists_with_junk. destruct junk.
  - destruct (find_longest_none_sequence original) as [i c] eqn:E. destruct (junk_suffix_optimal _ _ _ E) as (Li & _ & _).
    destruct (merge_spec (combine_lists_with_order (firstn i original) (second ++ somes (skipn i original)))) as (r & -> & P). cbn [bind].
    exists r, (length original - i). split; [reflexivity|]. split; [|split; [lia|discriminate]].
    rewrite P. destruct (combine_with_order_correct (firstn i original) (second ++ somes (skipn i original))) as (above & used & r' & Es & -> & F & _).
    rewrite somes_app, somes_map, (filled_somes _ _ _ F).
    assert (Q : somes original = somes (firstn i original) ++ somes (skipn i original)) by (rewrite <- somes_app, firstn_skipn; reflexivity).
    rewrite Q, <- app_assoc, (Permutation_app_comm (somes (skipn i original)) second), Es.
    rewrite !app_assoc. apply Permutation_app_tail. apply Permutation_app_comm.
  - destruct (merge_spec (combine_lists_with_order original (second ++ []))) as (r & -> & P). cbn [bind].
    exists r, 0. split; [reflexivity|]. split; [|split; [lia|auto]].
    rewrite P. rewrite app_nil_r. destruct (combine_with_order_correct original second) as (above & used & r' & -> & -> & F & _).
    rewrite somes_app, somes_map, (filled_somes _ _ _ F), !app_assoc. apply Permutation_app_tail. apply Permutation_app_comm.
Qed.
Print Assumptions combine_with_junk_complete.

(** Without room for the holes the fixed elements do not keep their order: the
    top ones are moved below. *)
Theorem combine_with_junk_order_refuted : exists original second l,
  combine_lists_with_junk original second false = Ok (map Some l, 0) /\ somes original = ["a"; "b"] /\ l = ["b"; "a"].
Proof. exists [Some "a"; Some "b"; None; None], [], ["b"; "a"]. vm_compute. auto. Qed.
Print Assumptions combine_with_junk_order_refuted.

Example combine_example :
  combine_lists_with_order [Some "a"; None; Some "b"; None] ["x"; "y"; "z"] = [Some "x"; Some "a"; Some "y"; Some "b"; Some "z"]
  /\ combine_lists_with_junk [Some "a"; None; Some "b"; None; None] ["x"] true = Ok ([Some "a"; Some "x"; Some "b"], 2)
  /\ combine_lists_with_junk [Some "a"; None; Some "b"; None; None] ["x"] false = Ok ([Some "b"; Some "a"; Some "x"], 0).
Proof. vm_compute. auto. Qed.

(* --- output layouts --- *)
Lemma no_holes_ok l : no_holes (map Some l) = Ok l.
Proof. induction l as [|x l IH]; [reflexivity|]. simpl. now rewrite IH. Qed.
Lemma insert_var_perm info x l : Permutation (insert_var info x l) (x :: l).
Proof. induction l as [|y l IH]; [reflexivity|]. cbn [insert_var]. destruct (key_le info x y); [reflexivity|]. rewrite IH. apply perm_swap. Qed.
Lemma sort_vars_perm info l : Permutation (sort_vars info l) l.
Proof. induction l as [|x l IH]; [reflexivity|]. cbn [sort_vars fold_right]. rewrite insert_var_perm. now constructor. Qed.

Lemma keep_deepest_spec live : forall rs seen, let k := somes (keep_deepest live seen rs) in
  NoDup k /\ (forall x, In x k <-> In x rs /\ In x live /\ ~ In x seen) /\ length (keep_deepest live seen rs) = length rs.
Proof.
  induction rs as [|v rs IH]; intros seen; cbn [keep_deepest].
  - simpl. split; [constructor|]. split; [tauto|reflexivity].
  - destruct (mem v live && negb (mem v seen)) eqn:C.
    + apply andb_true_iff in C as [C1 C2]. apply mem_In in C1. apply negb_true_iff, mem_false in C2.
      destruct (IH (v :: seen)) as (N & I & L). change (somes (Some v :: ?z)) with (v :: somes z). cbv zeta in *. split; [|split].
      * constructor; [|exact N]. intros Q. apply I in Q. simpl in Q. tauto.
      * intros x. simpl. rewrite I. simpl. destruct (string_dec v x) as [->|Nv]; intuition.
      * simpl. now rewrite L.
    + destruct (IH seen) as (N & I & L). change (somes (None :: ?z)) with (somes z). cbv zeta in *. split; [exact N|]. split.
      * intros x. rewrite I. simpl. split; [tauto|]. intros ([<-|Q1] & Q2 & Q3); [|tauto]. exfalso.
        apply andb_false_iff in C as [C|C]; [apply mem_false in C; contradiction|apply negb_false_iff, mem_In in C; contradiction].
      * simpl. now rewrite L.
Qed.
Lemma somes_rev {A} (l : list (option A)) : Permutation (somes (rev l)) (somes l).
Proof.
  induction l as [|x l IH]; [reflexivity|]. cbn [rev]. rewrite somes_app, IH. rewrite Permutation_app_comm.
  change (somes (x :: l)) with (somes ([x] ++ l)). rewrite somes_app. reflexivity.
Qed.
Lemma drop_nones_somes {A} (l : list (option A)) : somes (drop_nones l) = somes l.
Proof. induction l as [|[x|] l IH]; auto. Qed.
Lemma drop_nones_length {A} (l : list (option A)) : length (drop_nones l) <= length l.
Proof. induction l as [|[x|] l IH]; simpl; lia. Qed.

(** The layout starts with the results of the last instruction, in order; below
    them come live variables only, without repetition: every live variable that
    is in the input stack or is not among those results; what comes after
    [junk_idx] is an untouched bottom of the input stack, and is empty when
    junk is not allowed. *)
Theorem output_layout_correct : forall input final live info junk, NoDup live -> exists body tail,
  output_stack_layout input final live info junk = Ok (final ++ body ++ tail, length final + length body)
  /\ NoDup body
  /\ (forall x, In x body <-> In x live /\ (In x input \/ ~ In x final))
  /\ (exists pre, input = pre ++ tail)
  /\ (junk = false -> tail = []).
Proof.
  intros input final live info junk Nl. unfold output_stack_layout, trim_none.
  set (kd := rev (keep_deepest live [] (rev input))). set (bottom := drop_nones kd).
  destruct (keep_deepest_spec live (rev input) []) as (Nk & Ik & Lk). cbv zeta in *.
  assert (Pb : Permutation (somes bottom) (somes (keep_deepest live [] (rev input)))).
  { unfold bottom. rewrite drop_nones_somes. apply somes_rev. }
  assert (Ib : forall x, In x (somes bottom) <-> In x input /\ In x live).
  { intros x. split; intros H.
    - apply (Permutation_in _ Pb), Ik in H. rewrite <- in_rev in H. tauto.
    - apply (Permutation_in _ (Permutation_sym Pb)), Ik. rewrite <- in_rev. simpl. tauto. }
  assert (Nb : NoDup (somes bottom)) by (eapply Permutation_NoDup; [symmetry; exact Pb|exact Nk]).
  assert (Lb : length bottom <= length input).
  { unfold bottom. etransitivity; [apply drop_nones_length|]. unfold kd. rewrite rev_length, Lk, rev_length. lia. }
  set (place := filter (fun x => negb (mem x final || mem_opt x bottom)) live). set (sorted := sort_vars info place).
  assert (Ip : forall x, In x place <-> In x live /\ ~ In x final /\ ~ In x input).
  { intros x. unfold place. rewrite filter_In, negb_true_iff, orb_false_iff. unfold mem_opt. rewrite !mem_false, Ib. tauto. }
  assert (Np : NoDup place) by (apply NoDup_filter; exact Nl).
  assert (Res : forall b, Permutation b (somes bottom ++ sorted) -> NoDup b /\ (forall x, In x b <-> In x live /\ (In x input \/ ~ In x final))).
  { intros b P. assert (P' : Permutation b (somes bottom ++ place)) by (rewrite P; apply Permutation_app_head; apply sort_vars_perm). split.
    - eapply Permutation_NoDup; [symmetry; exact P'|]. clear - Nb Np Ib Ip. induction (somes bottom) as [|a l IH] eqn:Q in Nb, Ib |- *; [exact Np|].
      clear IH. assert (G : forall l, NoDup l -> (forall x, In x l -> ~ In x place) -> NoDup (l ++ place)).
      { induction l0 as [|y l0 IH0]; intros N1 D1; [exact Np|]. inversion N1 as [|? ? M1 M2]; subst. simpl. constructor.
        - rewrite in_app_iff. intros [K|K]; [contradiction|]. apply (D1 y); simpl; auto.
        - apply IH0; auto. intros z Hz. apply D1. right. exact Hz. }
      apply G; [exact Nb|]. intros x Hx Hp. apply Ib in Hx. apply Ip in Hp. tauto.
    - intros x. split; intros H.
      + apply (Permutation_in _ P'), in_app_iff in H. rewrite Ib, Ip in H. tauto.
      + apply (Permutation_in _ (Permutation_sym P')), in_app_iff. rewrite Ib, Ip.
        destruct (in_dec string_dec x input); destruct H as [H1 [H2|H2]]; tauto. }
  destruct (Nat.leb_spec (holes bottom) (length sorted)) as [Le|Gt].
  - destruct (combine_with_order_complete bottom sorted Le) as (b & -> & P). rewrite no_holes_ok. cbn [bind].
    destruct (Res b P) as [R1 R2]. exists b, []. rewrite app_nil_r. split; [f_equal; f_equal; lia|]. split; [exact R1|]. split; [exact R2|].
    split; [exists input; now rewrite app_nil_r|auto].
  - destruct (combine_with_junk_complete bottom sorted junk) as (b & k & -> & P & Lk' & Hk). cbn [bind]. rewrite no_holes_ok. cbn [bind].
    destruct (Res b P) as [R1 R2].
    destruct (Nat.ltb_spec 0 k) as [Pk|Zk].
    + exists b, (skipn (length input - k) input). split; [f_equal; f_equal; lia|]. split; [exact R1|]. split; [exact R2|].
      split; [exists (firstn (length input - k) input); now rewrite firstn_skipn|]. intros J. specialize (Hk J). lia.
    + exists b, []. rewrite app_nil_r. split; [f_equal; f_equal; lia|]. split; [exact R1|]. split; [exact R2|].
      split; [exists input; now rewrite app_nil_r|auto].
Qed.
Print Assumptions output_layout_correct.

Example output_layout_example :
  output_stack_layout ["x"; "dead"; "y"; "dead2"; "z"; "z"; "dead3"; "dead4"] ["r"] ["x"; "y"; "z"; "r"; "n"] [] true
    = Ok (["r"; "n"; "x"; "z"; "y"; "dead2"; "z"; "z"; "dead3"; "dead4"], 5)
  /\ output_stack_layout ["x"; "dead"; "y"] ["r"] ["x"; "y"; "r"; "n"; "m"] [("n", [0%Z; 3%Z]); ("m", [0%Z; 2%Z])] false
    = Ok (["r"; "m"; "x"; "n"; "y"], 5).
Proof. vm_compute. auto. Qed.

(* --- duplicates --- *)
(** Renaming duplicates keeps the length; from the bottom, the first copy of a
    variable is kept and every other one is renamed "a" followed by the number
    of different variables below it; so a name that is not of that form occurs
    at most once, in the place of its deepest copy. *)
Lemma subst_dups_spec : forall rs added, NoDup added ->
  length (subst_dups added rs) = length rs
  /\ (forall pre v post, rs = pre ++ v :: post -> exists s, nth_error (subst_dups added rs) (length pre) = Some s /\
        ((~ In v added /\ ~ In v pre /\ s = v) \/
         ((In v added \/ In v pre) /\ s = ("a" ++ str_nat (length added + length (nodup string_dec (filter (fun x => negb (mem x added)) pre))))%string))).
Proof.
  induction rs as [|w rs IH]; intros added N; cbn [subst_dups].
  - split; [reflexivity|]. intros [|? ?] ? ? E; discriminate E.
  - destruct (mem w added) eqn:M.
    + destruct (IH added N) as [F H]. split; [simpl; now rewrite F|]. intros [|u pre] v post E; simpl in E; injection E as -> E.
      * apply mem_In in M. eexists. split; [reflexivity|]. right. split; [auto|]. simpl. now rewrite Nat.add_0_r.
      * subst rs. destruct (H pre v post eq_refl) as (s & E1 & D). exists s. split; [exact E1|]. simpl. rewrite M. simpl.
        destruct D as [(D1 & D2 & D3)|(D1 & D2)]; [left|right; tauto]. split; [exact D1|]. split; [|exact D3].
        intros [<-|Q]; [|contradiction]. apply mem_In in M. contradiction.
    + apply mem_false in M. destruct (IH (w :: added)) as [F H]; [constructor; auto|]. split; [simpl; now rewrite F|].
      intros [|u pre] v post E; simpl in E; injection E as -> E.
      * exists v. split; [reflexivity|]. left. auto.
      * subst rs. destruct (H pre v post eq_refl) as (s & E1 & D). exists s. split; [exact E1|].
        destruct D as [(D1 & D2 & D3)|(D1 & D2)].
        -- left. split; [intros Q; apply D1; right; exact Q|]. split; [|exact D3]. intros [<-|Q]; [apply D1; left; reflexivity|contradiction].
        -- right. split; [simpl in D1 |- *; tauto|]. rewrite D2. f_equal. f_equal. cbn [length].
           assert (Hm : mem u added = false) by (now apply mem_false). cbn [filter]. rewrite Hm. cbn [negb].
           assert (Cn : length (nodup string_dec (u :: filter (fun x => negb (mem x added)) pre)) =
                   S (length (nodup string_dec (filter (fun x => negb (mem x (u :: added))) pre)))).
           { assert (X : Permutation (nodup string_dec (u :: filter (fun x => negb (mem x added)) pre))
                                     (u :: nodup string_dec (filter (fun x => negb (mem x (u :: added))) pre))).
             { apply NoDup_Permutation.
               - apply NoDup_nodup.
               - constructor; [|apply NoDup_nodup]. rewrite nodup_In, filter_In, negb_true_iff, mem_false. simpl. tauto.
               - intros y. rewrite nodup_In. cbn [In]. rewrite nodup_In, !filter_In, !negb_true_iff, !mem_false. simpl.
                 destruct (string_dec u y); tauto. }
             apply Permutation_length in X. exact X. }
           rewrite Cn. lia.
Qed.

Theorem substitute_duplicates_partial : forall stack above v below, stack = above ++ v :: below ->
  length (substitute_duplicates stack) = length stack
  /\ nth_error (substitute_duplicates stack) (length above) =
       Some (if in_dec string_dec v below then ("a" ++ str_nat (length (nodup string_dec below)))%string else v).
Proof.
  intros stack above v below ->. unfold substitute_duplicates.
  destruct (subst_dups_spec (rev (above ++ v :: below)) [] (NoDup_nil _)) as [F H].
  assert (L : length (subst_dups [] (rev (above ++ v :: below))) = length (above ++ v :: below)).
  { rewrite rev_length in F. exact F. }
  split; [rewrite rev_length; exact L|].
  destruct (H (rev below) v (rev above)) as (s & E & D); [rewrite rev_app_distr; simpl; rewrite <- app_assoc; reflexivity|].
  assert (G : forall (l : list string) k, k < length l -> nth_error (rev l) (length l - S k) = nth_error l k).
  { clear. intros l k Hk. revert k Hk. induction l as [|x l IH]; intros k Hk; [simpl in Hk; lia|]. cbn [rev length]. destruct k as [|k].
    - rewrite nth_error_app2 by (rewrite rev_length; lia). rewrite rev_length. replace (S (length l) - 1 - length l) with 0 by lia. reflexivity.
    - rewrite nth_error_app1 by (rewrite rev_length; simpl in Hk; lia). simpl in Hk. simpl. apply IH. lia. }
  assert (Q : nth_error (rev (subst_dups [] (rev (above ++ v :: below)))) (length above) = Some s).
  { rewrite <- E, rev_length. rewrite <- (G _ (length below)) by (rewrite L, app_length; simpl; lia). f_equal. rewrite L, app_length. simpl. lia. }
  rewrite Q. f_equal. destruct D as [(D1 & D2 & D3)|([[]|D1] & D2)].
  - rewrite <- in_rev in D2. destruct (in_dec string_dec v below); [contradiction|exact D3].
  - rewrite <- in_rev in D1. destruct (in_dec string_dec v below); [|contradiction]. rewrite D2. simpl. do 2 f_equal.
    apply Permutation_length. apply NoDup_Permutation; try apply NoDup_nodup. intros y. rewrite !nodup_In, filter_In, <- in_rev. tauto.
Qed.
Print Assumptions substitute_duplicates_partial.

(** A variable that occurs three times, or two variables repeated above the
    same elements, get the same new name twice; and the new name may be that of
    another variable. *)
Theorem substitute_duplicates_refuted :
  substitute_duplicates ["x"; "x"; "x"] = ["a1"; "a1"; "x"]
  /\ substitute_duplicates ["x"; "y"; "x"; "y"] = ["a2"; "a2"; "x"; "y"]
  /\ substitute_duplicates ["x"; "x"; "a2"] = ["a2"; "x"; "a2"].
Proof. vm_compute. auto. Qed.
Print Assumptions substitute_duplicates_refuted.

Theorem substitute_duplicates_not_injective_refuted : exists stack, ~ NoDup (substitute_duplicates stack).
Proof. exists ["x"; "x"; "x"]. vm_compute. intros N. inversion N as [|? ? H _]. apply H. left. reflexivity. Qed.
Print Assumptions substitute_duplicates_not_injective_refuted.

(* --- terminal blocks --- *)
Lemma deepest_live_le live rs : deepest_live live rs <= length rs.
Proof. induction rs as [|v rs IH]; [reflexivity|]. cbn [deepest_live]. destruct (_ <=? 16)%nat; [lia|]. destruct (mem v live); simpl in *; lia. Qed.
Lemma pop_dead_spec live : forall n stack, n <= length stack -> exists popped stack' n', pop_dead live stack n = Ok (stack', n')
  /\ stack = popped ++ stack' /\ length popped + n' = n /\ (forall x, In x popped -> ~ In x live)
  /\ (0 < n' -> exists v rest, stack' = v :: rest /\ In v live).
Proof.
  induction n as [|n IH]; intros stack L; cbn [pop_dead].
  - exists [], stack, 0. split; [reflexivity|]. split; [reflexivity|]. split; [reflexivity|]. split; [intros x []|intros; lia].
  - destruct stack as [|v rest]; [simpl in L; lia|]. destruct (mem v live) eqn:M.
    + apply mem_In in M. exists [], (v :: rest), (S n). split; [reflexivity|]. split; [reflexivity|]. split; [reflexivity|]. split; [intros x []|eauto].
    + apply mem_false in M. destruct (IH rest) as (popped & stack' & n' & E & -> & Ln & D & H); [simpl in L; lia|].
      exists (v :: popped), stack', n'. split; [exact E|]. split; [reflexivity|]. split; [simpl; lia|]. split; [intros x [<-|Q]; auto|exact H].
Qed.
Lemma find_dead_spec live stack : forall j, j < length stack -> exists k, find_dead live stack j = Ok k /\ k <= j
  /\ (k <> 0 -> exists v, nth_error stack k = Some v /\ ~ In v live).
Proof.
  induction j as [|j IH]; intros L; cbn [find_dead]; [exists 0; repeat split; auto; congruence|].
  destruct (nth_error stack (S j)) as [v|] eqn:E; [|apply nth_error_None in E; lia]. cbn [of_option bind].
  destruct (mem v live) eqn:M.
  - destruct IH as (k & E' & Lk & H); [lia|]. exists k. repeat split; auto.
  - apply mem_false in M. exists (S j). repeat split; auto. intros _. eauto.
Qed.
Lemma swap_perm {A} (a b : A) : forall l k, nth_error l k = Some a -> Permutation (a :: set_nth k b l) (b :: l).
Proof.
  induction l as [|x l IH]; intros [|k] H; try discriminate H; cbn [set_nth].
  - injection H as ->. apply perm_swap.
  - rewrite perm_swap, (IH k H). apply perm_swap.
Qed.

Lemma prune_loop_spec live : forall fuel stack n, n + 16 <= length stack -> 0 < n ->
  ((n < fuel /\ exists v rest, stack = v :: rest /\ ~ In v live) \/ S n < fuel) ->
  exists r removed, prune_loop fuel live stack n = Ok r /\ Permutation (removed ++ r) stack /\ forall x, In x removed -> ~ In x live.
Proof.
  induction fuel as [|fuel IH]; intros stack n L Pn Hf; [lia|]. cbn [prune_loop].
  destruct (pop_dead_spec live n stack) as (popped & stack' & n' & E & Es & Ln & D & H); [lia|]. rewrite E. cbn [bind].
  destruct n' as [|n'].
  - exists stack', popped. split; [reflexivity|]. split; [rewrite Es; reflexivity|exact D].
  - assert (Ls : length stack = length popped + length stack') by (rewrite Es; apply app_length).
    destruct (find_dead_spec live stack' (Nat.min 15 (length stack'))) as (j & Ej & Lj & Hj); [lia|]. rewrite Ej. cbn [bind].
    destruct (Nat.eqb_spec j 0) as [->|Nj].
    + exists stack', popped. split; [reflexivity|]. split; [rewrite Es; reflexivity|exact D].
    + destruct (Hj Nj) as (a & Ea & Da). rewrite Ea. cbn [of_option bind]. destruct (H (Nat.lt_0_succ _)) as (b & rest & -> & Lb). cbn [nth_error of_option bind].
      destruct j as [|j]; [contradiction|]. cbn [set_nth]. cbn [nth_error] in Ea.
      destruct (IH (a :: set_nth j b rest) (S n')) as (r & removed & Er & P & Dr).
      * simpl in *. rewrite set_nth_length. lia.
      * lia.
      * left. split; [|eauto]. destruct Hf as [[Hf (v & rst & Hv & Dv)]|Hf]; [|lia].
        destruct popped as [|p popped]; [|simpl in Ln; lia]. simpl in Es. rewrite Es in Hv. injection Hv as <- <-. contradiction.
      * exists r, (popped ++ removed). split; [exact Er|]. split.
        -- rewrite Es, <- app_assoc. apply Permutation_app_head. rewrite P. apply swap_perm. exact Ea.
        -- intros x Hx. apply in_app_iff in Hx as [Hx|Hx]; auto.
Qed.

(** Making deep elements accessible only removes elements that are not live. *)
Theorem remove_till_accessible_correct : forall input live, exists r removed,
  remove_till_accessible input live = Ok r /\ Permutation (removed ++ r) input /\ forall x, In x removed -> ~ In x live.
Proof.
  intros input live. unfold remove_till_accessible. pose proof (deepest_live_le live (rev input)) as L. rewrite rev_length in L.
  destruct (Nat.ltb_spec 0 (deepest_live live (rev input) - 16)) as [P|Z].
  - apply prune_loop_spec; [lia|exact P|right; lia].
  - exists input, []. repeat split; auto.
Qed.
Print Assumptions remove_till_accessible_correct.

Lemma overlap_loop_spec lst1 lst2 live : forall steps i o, 1 <= i -> i + steps <= S (Nat.min (length lst1) (length lst2)) ->
  o < i -> firstn o lst2 = skipn (length lst1 - o) lst1 -> (forall x, In x (firstn (i - 1) lst2) -> ~ In x live) ->
  let r := overlap_loop lst1 lst2 live i steps o in
  r <= Nat.min (length lst1) (length lst2) /\ firstn r lst2 = skipn (length lst1 - r) lst1 /\ forall x, In x (firstn r lst2) -> ~ In x live.
Proof.
  induction steps as [|steps IH]; intros i o Hi Hs Ho He Hl; cbn [overlap_loop].
  - cbv zeta. split; [lia|]. split; [exact He|]. intros x Hx. apply Hl. replace (i - 1) with (o + (i - 1 - o)) by lia.
    rewrite <- (firstn_skipn o lst2). rewrite firstn_app. apply in_app_iff. left.
    rewrite firstn_firstn. replace (Nat.min _ o) with o by lia. exact Hx.
  - destruct (nth_error lst2 (i - 1)) as [x|] eqn:E; [|apply nth_error_None in E; lia].
    assert (Sub : forall x, In x (firstn o lst2) -> ~ In x live).
    { intros y Hy. apply Hl. rewrite <- (firstn_skipn o lst2). rewrite firstn_app. apply in_app_iff. left.
      rewrite firstn_firstn. replace (Nat.min _ o) with o by lia. exact Hy. }
    destruct (mem x live) eqn:M; [cbv zeta; split; [lia|auto]|]. apply mem_false in M.
    apply IH; try lia.
    + destruct (list_eqb _ _); lia.
    + destruct (list_eqb _ _) eqn:Q; [symmetry; now apply list_eqb_eq|exact He].
    + replace (i + 1 - 1) with (S (i - 1)) by lia. intros y Hy.
      assert (F : firstn (S (i - 1)) lst2 = firstn (i - 1) lst2 ++ [x]).
      { clear - E. revert E. generalize (i - 1) as k. induction lst2 as [|z l IHl]; intros [|k] E; try discriminate E; [injection E as ->; reflexivity|].
        cbn [firstn app]. f_equal. apply IHl. exact E. }
      rewrite F in Hy. apply in_app_iff in Hy as [Hy|[<-|[]]]; auto.
Qed.

(** Layouts of terminal blocks: the results of the last instruction on top;
    below, every live variable; with respect to the input stack only elements
    that are not live were dropped, and those dropped from the top are exactly
    the deepest arguments of the last instruction, which finds them there. *)
Theorem propagate_output_correct : forall input final in_live live info args, exists new dropped kept bottom removed,
  propagate_output_stack input final in_live live info args = Ok (final ++ kept)
  /\ new ++ bottom = dropped ++ kept
  /\ Permutation (removed ++ bottom) input /\ (forall x, In x removed -> ~ In x in_live)
  /\ (forall x, In x dropped -> ~ In x live) /\ (exists args', args = args' ++ dropped)
  /\ (forall x, In x new <-> In x live /\ ~ In x final /\ ~ In x bottom)
  /\ (forall x, In x live -> In x final \/ In x kept).
Proof.
  intros input final in_live live info args. unfold propagate_output_stack.
  assert (B : exists bottom removed, (if (16 <=? length input)%nat then remove_till_accessible input in_live else Ok input) = Ok bottom
     /\ Permutation (removed ++ bottom) input /\ forall x, In x removed -> ~ In x in_live).
  { destruct (16 <=? length input)%nat; [|exists input, []; repeat split; auto].
    destruct (remove_till_accessible_correct input in_live) as (r & rm & E & P & D). exists r, rm. auto. }
  destruct B as (bottom & removed & -> & Pb & Db). cbn [bind].
  set (place := filter (fun x => negb (mem x final || mem x bottom)) live). set (new := sort_vars info place).
  assert (In_new : forall x, In x new <-> In x live /\ ~ In x final /\ ~ In x bottom).
  { intros x. assert (X : In x new <-> In x place) by (split; apply Permutation_in; [|symmetry]; apply sort_vars_perm).
    rewrite X. unfold place. rewrite filter_In, negb_true_iff, orb_false_iff, !mem_false. tauto. }
  assert (O : exists dropped kept, skipn (match final, place with [], [] => max_tail_head_overlap args (new ++ bottom) live | _, _ => 0 end) (new ++ bottom) = kept
     /\ new ++ bottom = dropped ++ kept /\ (forall x, In x dropped -> ~ In x live) /\ exists args', args = args' ++ dropped).
  { assert (Zero : exists dropped kept, skipn 0 (new ++ bottom) = kept /\ new ++ bottom = dropped ++ kept /\ (forall x, In x dropped -> ~ In x live) /\ exists args', args = args' ++ dropped).
    { exists [], (new ++ bottom). repeat split; auto. exists args. now rewrite app_nil_r. }
    destruct final as [|f final]; [|exact Zero]. destruct place as [|p place]; [|exact Zero]. clear Zero.
    set (k := max_tail_head_overlap args (new ++ bottom) live).
    destruct (overlap_loop_spec args (new ++ bottom) live (Nat.min (length args) (length (new ++ bottom))) 1 0) as (L & E & D); try lia.
    - rewrite Nat.sub_0_r, skipn_all. reflexivity.
    - intros x [].
    - change (overlap_loop _ _ _ 1 _ 0) with k in L, E, D. exists (firstn k (new ++ bottom)), (skipn k (new ++ bottom)). split; [reflexivity|]. split; [symmetry; apply firstn_skipn|].
      split; [exact D|]. exists (firstn (length args - k) args). rewrite E. symmetry. apply firstn_skipn. }
  destruct O as (dropped & kept & -> & Eq & Dd & Ar). exists new, dropped, kept, bottom, removed.
  split; [reflexivity|]. split; [exact Eq|]. split; [exact Pb|]. split; [exact Db|]. split; [exact Dd|]. split; [exact Ar|]. split; [exact In_new|].
  intros x Lx. destruct (in_dec string_dec x final) as [If|Nf]; [auto|]. right.
  assert (Ix : In x (new ++ bottom)).
  { apply in_app_iff. destruct (in_dec string_dec x bottom); [auto|]. left. apply In_new. auto. }
  rewrite Eq in Ix. apply in_app_iff in Ix as [Ix|Ix]; [|exact Ix]. exfalso. exact (Dd x Ix Lx).
Qed.
Print Assumptions propagate_output_correct.

Example propagate_output_example :
  propagate_output_stack ["p"; "q"; "x"] [] ["x"] ["x"] [] ["a"; "p"; "q"] = Ok ["x"]
  /\ propagate_output_stack ["d0"; "l1"; "d1"; "d2"; "3"; "4"; "5"; "6"; "7"; "8"; "9"; "10"; "11"; "12"; "13"; "14"; "15"; "deep"]
       ["r"] ["l1"; "deep"] ["deep"; "n"] [] []
     = Ok ["r"; "n"; "d1"; "d2"; "3"; "4"; "5"; "6"; "7"; "8"; "9"; "10"; "11"; "12"; "13"; "14"; "l1"; "deep"].
Proof. vm_compute. auto. Qed.

(** Forgetting only drops a bottom part with nothing live in it. *)
Theorem forget_values_correct : forall stack live, exists dropped, stack = forget_values stack live ++ dropped
  /\ (forall x, In x dropped -> ~ In x live)
  /\ (forall above x, forget_values stack live = above ++ [x] -> In x live).
Proof.
  intros stack live. unfold forget_values.
  assert (G : forall rs, exists d, rs = d ++ drop_dead live rs /\ (forall x, In x d -> ~ In x live) /\ (forall x rest, drop_dead live rs = x :: rest -> In x live)).
  { induction rs as [|v rs (d & E & D & H)]; cbn [drop_dead]; [exists []; repeat split; auto; discriminate|].
    destruct (mem v live) eqn:M.
    - apply mem_In in M. exists []. repeat split; auto. intros x rest Q. injection Q as <- _. exact M.
    - apply mem_false in M. exists (v :: d). split; [simpl; now rewrite <- E|]. split; [intros x [<-|Q]; auto|exact H]. }
  destruct (G (rev stack)) as (d & E & D & H). exists (rev d). split; [|split].
  - rewrite <- rev_app_distr, <- E. symmetry. apply rev_involutive.
  - intros x Hx. apply D. now apply in_rev.
  - intros above x Q. apply (H x (rev above)). rewrite <- (rev_involutive (drop_dead _ _)), Q, rev_app_distr. reflexivity.
Qed.
Print Assumptions forget_values_correct.
