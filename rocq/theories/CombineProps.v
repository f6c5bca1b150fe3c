(** Executions after splitting and merging (C22, C23), and the combination of
    all the blocks that can be merged. *)
From Coq Require Import Relations.
From Verif Require Import Base UtilModel UtilProps UnifyProps LiveModel CfgModel CfgSpec CfgProps.
Open Scope string_scope. Open Scope list_scope.

Lemma equivalent_refl g : equivalent g g. Proof. split; reflexivity. Qed.
Lemma equivalent_trans g1 g2 g3 : equivalent g1 g2 -> equivalent g2 g3 -> equivalent g1 g3.
Proof. intros [A B] [C D]. split; intros t; [rewrite A; apply C|rewrite B; apply D]. Qed.

Lemma walk_snoc g p x y : walk g (p ++ [x]) -> edge g x y -> In y (map fst (cl_blocks g)) -> walk g ((p ++ [x]) ++ [y]).
Proof.
  intros W E I. induction p as [|z p IH]; [simpl; auto|]. destruct p as [|w p]; [destruct W; simpl; auto|].
  destruct W as [W1 W2]. split; [exact W1|]. apply IH, W2.
Qed.
Lemma trace_snoc g p x y : trace g ((p ++ [x]) ++ [y]) = trace g (p ++ [x]) ++ branch g x y ++ actions g y.
Proof.
  induction p as [|z p IH]; [simpl; rewrite !app_nil_r, <- ?app_assoc; reflexivity|]. destruct p as [|w p].
  - simpl. rewrite !app_nil_r, <- !app_assoc. reflexivity.
  - change (trace g (((z :: w :: p) ++ [x]) ++ [y])) with (actions g z ++ branch g z w ++ trace g (((w :: p) ++ [x]) ++ [y])).
    rewrite IH. change (trace g ((z :: w :: p) ++ [x])) with (actions g z ++ branch g z w ++ trace g ((w :: p) ++ [x])).
    rewrite <- !app_assoc. reflexivity.
Qed.
Lemma snoc_cases {A} (p : list A) : p = [] \/ exists q x, p = q ++ [x].
Proof. destruct p as [|a p]; [auto|]. right. destruct (@exists_last A (a :: p)) as (q & x & H); [discriminate|eauto]. Qed.

Theorem split_block_equivalent_partial : forall g id i b g', consistent g -> splittable g id b -> split_block id i g = Ok g' -> equivalent g g'.
Proof.
  intros g id i b g' C S E. destruct (split_block_walks g id i b g' C S E) as [W1 W2].
  assert (D := fun x y => split_departures g id i b g' x y C S E).
  destruct (split_block_preserves_partial g id i b C S) as (g'' & bf & bs & E' & C' & R). rewrite E in E'. injection E' as <-.
  destruct R as (_ & LF & LS & _ & _ & _ & FF & _ & _ & _ & _ & _ & _ & _ & K & _ & ST).
  assert (SL := sp_lookup _ _ _ S). assert (F1 := sp_first _ _ _ S). assert (F2 := sp_second _ _ _ S). assert (NL := sp_no_loop _ _ _ S).
  assert (N1 := first_ne id). assert (N2 := second_ne id). assert (N3 := halves_ne id).
  set (f := first_id id) in *. set (s := second_id id) in *.
  assert (EFS : edge g' f s) by (exists bf; auto).
  assert (KS : In s (map fst (cl_blocks g'))) by (eapply lookup_In_key; eauto).
  assert (HS : forall p, walk g p -> hd_error p = cl_start g -> hd_error (expand id p) = cl_start g').
  { intros [|x p] W H; [destruct W|]. simpl in H. rewrite ST, <- H. simpl. fold f s. destruct (String.eqb_spec x id), (String.eqb_spec id x); simpl; congruence. }
  assert (HU : forall p, walk g p -> hd_error (expand id p) = cl_start g' -> hd_error p = cl_start g).
  { intros [|x p] W H; [destruct W|]. simpl. simpl in H. rewrite ST in H. destruct (c_start g C) as (st & Q & I). rewrite Q in *. simpl in H.
    assert (I' : In x (map fst (cl_blocks g))) by (eapply walk_blocks; [exact W|simpl; auto]).
    destruct (String.eqb_spec x id), (String.eqb_spec id st); simpl in H; fold f s in H; [congruence|exfalso; apply F1; congruence|exfalso; apply F1; congruence|congruence]. }
  assert (HN : forall q, walk g' q -> hd_error q = cl_start g' -> hd_error q <> Some s).
  { intros q W H Q. rewrite H, ST in Q. destruct (c_start g C) as (st & Z & I). rewrite Z in Q. simpl in Q.
    destruct (String.eqb_spec id st); injection Q as Q; [congruence|]. subst. tauto. }
  assert (EL : forall p x, expand id (p ++ [x]) = expand id p ++ (if String.eqb x id then [f; s] else [x])).
  { intros p x. unfold expand. rewrite flat_map_app. simpl. rewrite app_nil_r. reflexivity. }
  assert (NE : forall p, walk g p -> forall q', expand id p <> q' ++ [f]).
  { intros p W q' Q. destruct (snoc_cases p) as [->|(r & x & ->)]; [destruct W|]. rewrite EL in Q.
    assert (I : In x (map fst (cl_blocks g))) by (eapply walk_blocks; [exact W|apply in_or_app; simpl; auto]).
    destruct (String.eqb_spec x id) as [->|].
    - change [f; s] with ([f] ++ [s]) in Q. rewrite app_assoc in Q. apply app_inj_tail in Q. destruct Q; congruence.
    - apply app_inj_tail in Q. destruct Q; subst; tauto. }
  split; intros t; split.
  - intros (p & x & [W H] & T & Q). destruct (W1 _ W) as [V U].
    assert (I : In x (map fst (cl_blocks g))) by (eapply walk_blocks; [exact W|apply in_or_app; simpl; auto]).
    assert (FS : from_start g' (expand id (p ++ [x]))) by (split; auto).
    rewrite <- Q, <- U. rewrite EL in *. destruct (String.eqb_spec x id) as [->|Nx].
    + exists (expand id p ++ [f]), s. rewrite <- app_assoc. split; [exact FS|]. split; [|reflexivity].
      intros y EY. apply edge_departures in EY. rewrite D in EY. revert EY. eqs. intros EY. apply edge_departures in EY. apply (T y EY).
    + exists (expand id p), x. split; [exact FS|]. split; [|reflexivity].
      intros y EY. apply edge_departures in EY. rewrite D in EY. destruct (String.eqb_spec x s); [subst; tauto|]. destruct (String.eqb_spec x f); [subst; tauto|].
      destruct (String.eqb_spec x id); [lia|]. destruct (String.eqb_spec y f); [apply edge_departures in EY; apply (T _ EY)|].
      destruct (String.eqb_spec y id); [lia|]. apply edge_departures in EY. apply (T _ EY).
  - intros (q & z & [W H] & T & Q). assert (Nz : z <> f) by (intros ->; apply (T s EFS)).
    destruct (W2 _ W) as (p & V & X); [apply HN; auto|intros q' Y; apply app_inj_tail in Y; destruct Y; congruence|].
    destruct (W1 _ V) as [_ U]. rewrite X in *. destruct (snoc_cases p) as [->|(r & x & ->)]; [destruct V|].
    exists r, x. split; [split; auto|]. split; [|rewrite <- U; exact Q].
    assert (I : In x (map fst (cl_blocks g))) by (eapply walk_blocks; [exact V|apply in_or_app; simpl; auto]).
    intros y EY. assert (EY' := EY). apply edge_departures in EY'. rewrite EL in X. destruct (String.eqb_spec x id) as [->|Nx].
    + change [f; s] with ([f] ++ [s]) in X. rewrite app_assoc in X. apply app_inj_tail in X as [_ ->].
      apply (T y). apply edge_departures. rewrite D. eqs. exact EY'.
    + apply app_inj_tail in X as [_ ->]. apply (T (if String.eqb y id then f else y)). apply edge_departures. rewrite D.
      assert (Y : In y (map fst (cl_blocks g))) by (eapply edge_target; eauto). assert (y <> f) by congruence.
      destruct (String.eqb_spec y id) as [->|]; eqs; exact EY'.
  - intros (p & u & [W H] & Q). destruct (W1 _ W) as [V U]. exists (expand id p), u. split; [split; auto|]. rewrite U. exact Q.
  - intros (q & u & [W H] & Q). destruct (snoc_cases q) as [->|(r & x & ->)]; [destruct W|].
    assert (EX : exists q' u', walk g' q' /\ hd_error q' = cl_start g' /\ (forall q0, q' <> q0 ++ [f]) /\ trace g' q' = t ++ u').
    { destruct (string_dec x f) as [->|Nx].
      - exists ((r ++ [f]) ++ [s]), (u ++ branch g' f s ++ actions g' s). split; [apply walk_snoc; auto|]. split.
        { rewrite <- H. destruct r; reflexivity. }
        split; [intros q0 Y; apply app_inj_tail in Y; destruct Y; congruence|]. rewrite trace_snoc, Q, <- app_assoc. reflexivity.
      - exists (r ++ [x]), u. split; [exact W|]. split; [exact H|]. split; [|exact Q]. intros q0 Y. apply app_inj_tail in Y; destruct Y; congruence. }
    destruct EX as (q' & u' & W' & H' & F' & Q'). destruct (W2 _ W') as (p & V & X); [apply HN; auto|exact F'|].
    destruct (W1 _ V) as [_ U]. subst q'. exists p, u'. split; [split; auto|]. rewrite <- U. exact Q'.
Qed.

Theorem merge_blocks_equivalent_partial : forall g a b ba bb g', consistent g -> mergeable g a b ba bb -> cb_cond ba = None ->
  merge_blocks a b g = Ok g' -> equivalent g g'.
Proof.
  intros g a b ba bb g' C M CA E. destruct (merge_blocks_walks g a b ba bb g' C M CA E) as [W1 W2].
  assert (D := fun x y => merge_departures g a b ba bb g' x y C M E).
  destruct (merge_blocks_preserves_partial g a b ba bb C M) as (g'' & m & E' & C' & R). rewrite E in E'. injection E' as <-.
  destruct R as (LA' & LB' & _ & _ & _ & _ & _ & _ & _ & K & _ & ST).
  destruct M as [LA LB N SA PB NL ND NS].
  assert (EAB : edge g a b) by (apply edge_departures; unfold departures; rewrite LA; apply count_In, SA; reflexivity).
  assert (KB : In b (map fst (cl_blocks g))) by (eapply lookup_In_key; eauto).
  assert (HS : forall p, hd_error (unmerge a b p) = hd_error p).
  { intros [|x p]; [reflexivity|]. simpl. destruct (String.eqb_spec x a); simpl; congruence. }
  assert (EL : forall p x, unmerge a b (p ++ [x]) = unmerge a b p ++ (if String.eqb x a then [a; b] else [x])).
  { intros p x. unfold unmerge. rewrite flat_map_app. simpl. rewrite app_nil_r. reflexivity. }
  split; intros t; split.
  - intros (q & z & [W H] & T & Q). assert (Nz : z <> a) by (intros ->; apply (T b EAB)).
    destruct (W2 _ W) as (p & V & X); [congruence|intros q' Y; apply app_inj_tail in Y; destruct Y; congruence|].
    destruct (W1 _ V) as [_ U]. rewrite X in *. destruct (snoc_cases p) as [->|(r & x & ->)]; [destruct V|].
    exists r, x. split; [split; [exact V|rewrite ST, <- H, HS; reflexivity]|]. split; [|rewrite <- U; exact Q].
    intros y EY. apply edge_departures in EY. rewrite D in EY. rewrite EL in X. destruct (String.eqb_spec x a) as [->|Nx].
    + change [a; b] with ([a] ++ [b]) in X. rewrite app_assoc in X. apply app_inj_tail in X as [_ ->]. apply edge_departures in EY. apply (T _ EY).
    + apply app_inj_tail in X as [_ ->]. destruct (String.eqb_spec x b); [lia|]. apply edge_departures in EY. apply (T _ EY).
  - intros (p & x & [W H] & T & Q). destruct (W1 _ W) as [V U]. rewrite <- Q, <- U.
    assert (FS : from_start g (unmerge a b (p ++ [x]))) by (split; [exact V|rewrite HS, <- ST; exact H]).
    rewrite EL in *. destruct (String.eqb_spec x a) as [->|Nx].
    + exists (unmerge a b p ++ [a]), b. rewrite <- app_assoc. split; [exact FS|]. split; [|reflexivity].
      intros y EY. apply (T y). apply edge_departures. rewrite D, String.eqb_refl. apply edge_departures, EY.
    + exists (unmerge a b p), x. split; [exact FS|]. split; [|reflexivity].
      intros y EY. apply (T y). apply edge_departures. rewrite D. apply edge_departures in EY.
      assert (I : In x (map fst (cl_blocks g'))) by (eapply walk_blocks; [exact W|apply in_or_app; simpl; auto]). apply K in I as [_ I]. eqs; exact EY.
  - intros (q & u & [W H] & Q). destruct (snoc_cases q) as [->|(r & x & ->)]; [destruct W|].
    assert (EX : exists q' u', walk g q' /\ hd_error q' = cl_start g /\ (forall q0, q' <> q0 ++ [a]) /\ trace g q' = t ++ u').
    { destruct (string_dec x a) as [->|Nx].
      - exists ((r ++ [a]) ++ [b]), (u ++ branch g a b ++ actions g b). split; [apply walk_snoc; auto|]. split.
        { rewrite <- H. destruct r; reflexivity. }
        split; [intros q0 Y; apply app_inj_tail in Y; destruct Y; congruence|]. rewrite trace_snoc, Q, <- app_assoc. reflexivity.
      - exists (r ++ [x]), u. split; [exact W|]. split; [exact H|]. split; [|exact Q]. intros q0 Y. apply app_inj_tail in Y; destruct Y; congruence. }
    destruct EX as (q' & u' & W' & H' & F' & Q'). destruct (W2 _ W') as (p & V & X); [congruence|exact F'|].
    destruct (W1 _ V) as [_ U]. subst q'. exists p, u'. split; [split; [exact V|rewrite ST, <- H', HS; reflexivity]|]. rewrite <- U. exact Q'.
  - intros (p & u & [W H] & Q). destruct (W1 _ W) as [V U]. exists (unmerge a b p), u. split; [split; [exact V|rewrite HS, <- ST; exact H]|]. rewrite U. exact Q.
Qed.
