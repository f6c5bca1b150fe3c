(** Proofs about the last phases of the synthesizer. *)
From Verif Require Import Base Lexical SymExecModel AsmModel MachineSpec
  GreedyTailModel LexicalProofs CheckerProofs CheckerSim.

Definition names_match (r : list (string * string)) : Prop :=
  forall x, In x r -> (fst x = "SWAP1"%string -> snd x = "SWAP1"%string)
                   /\ (fst x = "DUP1"%string -> snd x = "DUP1"%string).

Section Generic.
(** An abstract run of a list of ids, in which SWAP1 SWAP1 does nothing and
    SWAP1 after DUP1 does nothing. *)
Context {S : Type}.
Variable step : string -> S -> option S.
Definition grun (l : list string) (m : S) : option S :=
  fold_left (fun o x => match o with Some m => step x m | None => None end) l (Some m).

Hypothesis swap_swap : forall m m1 m2, step "SWAP1" m = Some m1 -> step "SWAP1" m1 = Some m2 -> m2 = m.
Hypothesis dup_swap : forall m m1 m2, step "DUP1" m = Some m1 -> step "SWAP1" m1 = Some m2 -> m2 = m1.

Lemma grun_none l : fold_left (fun o x => match o with Some m => step x m | None => None end) l None = None.
Proof. induction l; simpl; auto. Qed.

Lemma grun_app l1 l2 m : grun (l1 ++ l2) m = match grun l1 m with Some m' => grun l2 m' | None => None end.
Proof.
  unfold grun. rewrite fold_left_app.
  destruct (fold_left _ l1 _); [reflexivity | apply grun_none].
Qed.

Lemma grun_cons x l m : grun (x :: l) m = match step x m with Some m' => grun l m' | None => None end.
Proof. unfold grun. simpl. destruct (step x m); [reflexivity | apply grun_none]. Qed.

Lemma useless_sim r : forall fr m m', names_match (fr ++ r) ->
  grun (map snd (rev fr ++ r)) m = Some m' -> grun (map snd (useless_loop fr r)) m = Some m'.
Proof.
  remember (length r) as n eqn:En. revert r En.
  induction n as [n IH] using (well_founded_induction lt_wf).
  intros r -> fr m m' NM H. destruct r as [|x r'].
  { simpl. rewrite app_nil_r in H. exact H. }
  cbn [useless_loop]. destruct fr as [|y fr'].
  { apply (IH (length r')); simpl; auto. }
  destruct (String.eqb_spec (fst y) "SWAP1") as [Ey|Ny];
  destruct (String.eqb_spec (fst x) "SWAP1") as [Ex|Nx]; cbn [andb].
  2,4: destruct (String.eqb (fst y) "DUP1"); cbn [andb];
       (apply (IH (length r')); simpl; auto;
         [ intros z Hz; apply NM; simpl in *; rewrite in_app_iff in *; simpl; tauto
         | rewrite <- app_assoc in *; simpl in *; rewrite <- ?app_assoc in *; simpl in *; auto ]).
  - (* SWAP1 SWAP1 *)
    assert (Sy : snd y = "SWAP1"%string) by (apply NM; simpl; auto).
    assert (Sx : snd x = "SWAP1"%string) by (apply NM; auto; apply in_app_iff; simpl; auto).
    cbn [rev] in H. rewrite <- app_assoc in H. cbn [app] in H.
    assert (H' : grun (map snd (rev fr' ++ r')) m = Some m').
    { rewrite map_app in H. cbn [map] in H. rewrite grun_app in H.
      rewrite map_app, grun_app.
      destruct (grun (map snd (rev fr')) m) as [m0|]; [|discriminate].
      rewrite !grun_cons, Sy, Sx in H.
      destruct (step "SWAP1" m0) as [m1|] eqn:E1; [|discriminate].
      rewrite grun_cons in H. destruct (step "SWAP1" m1) as [m2|] eqn:E2; [|discriminate].
      rewrite (swap_swap _ _ _ E1 E2) in H. exact H. }
    destruct fr' as [|y' fr''].
    + destruct r' as [|x' r'']; [exact H'|].
      apply (IH (length r'')); simpl; auto.
      intros z Hz. apply NM. simpl in *. tauto.
    + apply (IH (length r')); simpl; auto.
      intros z Hz. apply NM. simpl in *. rewrite in_app_iff in *. simpl. tauto.
  - destruct (String.eqb_spec (fst y) "DUP1") as [Dy|Dn]; cbn [andb].
    + (* DUP1 SWAP1 *)
      assert (Sy : snd y = "DUP1"%string) by (apply NM; simpl; auto).
      assert (Sx : snd x = "SWAP1"%string) by (apply NM; auto; apply in_app_iff; simpl; auto).
      apply (IH (length r')); simpl; auto.
      * intros z Hz. apply NM. simpl in *. rewrite in_app_iff in *. simpl. tauto.
      * cbn [rev] in H. rewrite <- app_assoc in *. cbn [app] in *.
        rewrite map_app in *. cbn [map] in *. rewrite grun_app in *.
        destruct (grun (map snd (rev fr')) m) as [m0|]; [|discriminate].
        rewrite !grun_cons, Sy in *. rewrite Sx in H.
        destruct (step "DUP1" m0) as [m1|] eqn:E1; [|discriminate].
        rewrite grun_cons in H. destruct (step "SWAP1" m1) as [m2|] eqn:E2; [|discriminate].
        rewrite (dup_swap _ _ _ E1 E2) in H. exact H.
    + apply (IH (length r')); simpl; auto.
      * intros z Hz. apply NM. simpl in *. rewrite in_app_iff in *. simpl. tauto.
      * rewrite <- app_assoc in *; simpl in *; rewrite <- ?app_assoc in *; simpl in *; auto.
Qed.

Lemma remove_useless_sim r m m' : names_match r ->
  grun (map snd r) m = Some m' -> grun (map snd (remove_useless r)) m = Some m'.
Proof.
  intros NM H. destruct r as [|x [|y r]]; auto.
  unfold remove_useless. apply useless_sim; auto.
Qed.
End Generic.

Lemma useless_length r : forall fr, length (useless_loop fr r) <= length fr + length r.
Proof.
  remember (length r) as n eqn:En. revert r En.
  induction n as [n IH] using (well_founded_induction lt_wf). intros r -> fr.
  destruct r as [|x r']; simpl; [rewrite rev_length; lia|].
  assert (R : forall q, length (useless_loop q r') <= length q + length r').
  { intros q. apply (IH (length r')); simpl; auto. }
  destruct fr as [|y fr']; [specialize (R [x]); simpl in R; lia|].
  destruct (String.eqb (fst y) "SWAP1" && String.eqb (fst x) "SWAP1").
  - destruct fr' as [|y' fr''].
    + destruct r' as [|x' r'']; simpl; [lia|].
      pose proof (IH (length r'') ltac:(simpl; lia) r'' eq_refl [x']). simpl in *. lia.
    + specialize (R (y' :: fr'')). simpl in *. lia.
  - destruct (String.eqb (fst y) "DUP1" && String.eqb (fst x) "SWAP1").
    + specialize (R (y :: fr')). simpl in *. lia.
    + specialize (R (x :: y :: fr')). simpl in *. lia.
Qed.

Lemma remove_useless_length r : length (remove_useless r) <= length r.
Proof.
  destruct r as [|x [|y r]]; simpl remove_useless; auto.
  pose proof (useless_length (y :: r) [x]). simpl length in *. lia.
Qed.

(** Every remaining operation was there before. *)
Lemma useless_incl r : forall fr z, In z (useless_loop fr r) -> In z fr \/ In z r.
Proof.
  remember (length r) as n eqn:En. revert r En.
  induction n as [n IH] using (well_founded_induction lt_wf). intros r -> fr z.
  destruct r as [|x r']; simpl; [rewrite <- in_rev; auto|].
  assert (R : forall q, In z (useless_loop q r') -> In z q \/ In z r').
  { intros q. apply (IH (length r')); simpl; auto. }
  destruct fr as [|y fr']; [intros H; apply R in H; simpl in H; tauto|].
  destruct (String.eqb (fst y) "SWAP1" && String.eqb (fst x) "SWAP1").
  - destruct fr' as [|y' fr''].
    + destruct r' as [|x' r'']; simpl; [tauto|]. intros H.
      apply (IH (length r'') ltac:(simpl; lia) r'' eq_refl [x']) in H. simpl in *. tauto.
    + intros H; apply R in H. simpl in *. tauto.
  - destruct (String.eqb (fst y) "DUP1" && String.eqb (fst x) "SWAP1");
      intros H; apply R in H; simpl in *; tauto.
Qed.

Lemma remove_useless_incl r z : In z (remove_useless r) -> In z r.
Proof.
  destruct r as [|x [|y r]]; auto.
  intros H. apply (useless_incl (y :: r) [x]) in H. simpl in *. tauto.
Qed.

(** No removable pair is left. *)
Definition redundant_pair (a b : string) : bool :=
  String.eqb b "SWAP1" && (String.eqb a "SWAP1" || String.eqb a "DUP1").
Fixpoint no_redundant (l : list string) : bool :=
  match l with
  | a :: ((b :: _) as l') => negb (redundant_pair a b) && no_redundant l'
  | _ => true
  end.

Lemma no_redundant_app l a b : no_redundant (l ++ [a]) = true -> redundant_pair a b = false ->
  no_redundant ((l ++ [a]) ++ [b]) = true.
Proof.
  induction l as [|c l IH]; intros H R.
  - simpl. rewrite R. reflexivity.
  - destruct l as [|d l]; simpl in *.
    + rewrite R. destruct (redundant_pair c a); simpl in *; auto.
    + apply andb_true_iff in H as [H1 H2]. rewrite H1. simpl. apply IH; auto.
Qed.

Lemma no_redundant_init l a : no_redundant (l ++ [a]) = true -> no_redundant l = true.
Proof.
  induction l as [|c l IH]; auto. destruct l as [|d l]; [reflexivity|].
  simpl in *. intros H. apply andb_true_iff in H as [H1 H2]. rewrite H1. simpl. auto.
Qed.

Lemma useless_complete r : forall fr, no_redundant (map fst (rev fr)) = true ->
  no_redundant (map fst (useless_loop fr r)) = true.
Proof.
  remember (length r) as n eqn:En. revert r En.
  induction n as [n IH] using (well_founded_induction lt_wf). intros r -> fr H.
  destruct r as [|x r']; simpl; [exact H|].
  destruct fr as [|y fr']; [apply (IH (length r')); simpl; auto|].
  destruct (String.eqb_spec (fst y) "SWAP1") as [Ey|Ny];
  destruct (String.eqb_spec (fst x) "SWAP1") as [Ex|Nx]; cbn [andb].
  - destruct fr' as [|y' fr''].
    + destruct r' as [|x' r'']; [reflexivity|]. apply (IH (length r'')); simpl; auto.
    + apply (IH (length r')); simpl; auto. cbn [rev] in H. rewrite map_app in H.
      apply no_redundant_init in H. exact H.
  - destruct (String.eqb (fst y) "DUP1"); cbn [andb];
    (apply (IH (length r')); simpl; auto; simpl in H; rewrite !map_app in *; simpl in *;
     apply no_redundant_app; auto; unfold redundant_pair; apply String.eqb_neq in Nx; rewrite Nx; auto).
  - destruct (String.eqb_spec (fst y) "DUP1") as [Dy|Dn]; cbn [andb].
    + apply (IH (length r')); simpl; auto.
    + apply (IH (length r')); simpl; auto; simpl in H; rewrite !map_app in *; simpl in *.
      apply no_redundant_app; auto. unfold redundant_pair.
      apply String.eqb_neq in Ny, Dn. rewrite Ny, Dn. destruct (String.eqb (fst x) "SWAP1"); auto.
  - destruct (String.eqb (fst y) "DUP1"); cbn [andb];
    (apply (IH (length r')); simpl; auto; simpl in H; rewrite !map_app in *; simpl in *;
     apply no_redundant_app; auto; unfold redundant_pair; apply String.eqb_neq in Nx; rewrite Nx; auto).
Qed.

Lemma remove_useless_complete r : no_redundant (map fst (remove_useless r)) = true.
Proof.
  destruct r as [|x [|y r]]; simpl remove_useless; auto.
  apply (useless_complete (y :: r) [x]). reflexivity.
Qed.

(** Instances: the machine and the symbolic execution. *)
Section Inst.
Context {V Loc LV : Type}.
Variable sem : semantics V Loc LV.
Variable tr : string -> asm.
Hypothesis tr_swap : tr "SWAP1" = {| a_name := "SWAP1"; a_value := None |}.
Hypothesis tr_dup : tr "DUP1" = {| a_name := "DUP1"; a_value := None |}.

Lemma mrun_grun l m : mrun sem (map tr l) m = grun (fun x => mstep sem (tr x)) l m.
Proof.
  revert m; induction l as [|x l IH]; intros m; [reflexivity|].
  rewrite grun_cons. simpl. destruct (mstep sem (tr x) m); auto.
Qed.

Lemma remove_useless_machine r m m' : names_match r ->
  mrun sem (map tr (map snd r)) m = Some m' ->
  mrun sem (map tr (map snd (remove_useless r))) m = Some m'.
Proof.
  intros NM. rewrite !mrun_grun. apply remove_useless_sim; auto.
  - intros [st w rg] m1 m2. rewrite tr_swap. unfold mstep.
    change (kind_of sem {| a_name := "SWAP1"; a_value := None |}) with (Some (@KSwap V 1)). cbn.
    destruct st as [|x [|y st]]; cbn; intros [= <-]; cbn; intros [= <-]; reflexivity.
  - intros [st w rg] m1 m2. rewrite tr_swap, tr_dup. unfold mstep.
    change (kind_of sem {| a_name := "SWAP1"; a_value := None |}) with (Some (@KSwap V 1)).
    change (kind_of sem {| a_name := "DUP1"; a_value := None |}) with (Some (@KDup V 1)). cbn.
    destruct st as [|x st]; cbn; intros [= <-]; cbn; intros [= <-]; reflexivity.
Qed.
End Inst.

Definition opt_of {A} (r : result A) : option A := match r with Ok a => Some a | Raise _ => None end.

Lemma run_symbolic_grun ui l st :
  opt_of (run_symbolic l ui st) = grun (fun x s => opt_of (execute_instr_id x s ui)) l st.
Proof.
  revert st; induction l as [|x l IH]; intros st; [reflexivity|].
  rewrite grun_cons. unfold run_symbolic in *. cbn [for_each].
  destruct (execute_instr_id x st ui); simpl; auto.
Qed.

Lemma remove_useless_symbolic ui r st st' : names_match r ->
  run_symbolic (map snd r) ui st = Ok st' ->
  run_symbolic (map snd (remove_useless r)) ui st = Ok st'.
Proof.
  intros NM H.
  assert (G : grun (fun x s => opt_of (execute_instr_id x s ui)) (map snd r) st = Some st').
  { rewrite <- run_symbolic_grun, H. reflexivity. }
  apply remove_useless_sim in G; auto.
  - rewrite <- run_symbolic_grun in G.
    destruct (run_symbolic (map snd (remove_useless r)) ui st); simpl in G; congruence.
  - intros l l1 l2. change (execute_instr_id "SWAP1" l ui) with (exec_swap 1 l).
    change (execute_instr_id "SWAP1" l1 ui) with (exec_swap 1 l1). unfold exec_swap.
    destruct l as [|x [|y l]]; try discriminate.
    change ((0 <=? 1)%Z && (1 <? Z.of_nat (length (x :: y :: l)))%Z) with (1 <? Z.of_nat (length (x :: y :: l)))%Z.
    replace (1 <? Z.of_nat (length (x :: y :: l)))%Z with true by (symmetry; apply Z.ltb_lt; simpl length; lia).
    cbn -[Z.of_nat]. intros [= <-].
    replace (1 <? Z.of_nat (length (y :: x :: l)))%Z with true by (symmetry; apply Z.ltb_lt; simpl length; lia).
    cbn. change (Pos.to_nat 1) with 1. cbn. congruence.
  - intros l l1 l2. change (execute_instr_id "SWAP1" l1 ui) with (exec_swap 1 l1).
    change (execute_instr_id "DUP1" l ui) with (exec_dup 0 l). unfold exec_swap, exec_dup.
    destruct l as [|x l]; try discriminate.
    replace ((0 <=? 0)%Z && (0 <? Z.of_nat (length (x :: l)))%Z) with true
      by (symmetry; apply andb_true_iff; split; [reflexivity|apply Z.ltb_lt; simpl length; lia]).
    cbn -[Z.of_nat]. intros [= <-].
    replace (1 <? Z.of_nat (length (x :: x :: l)))%Z with true by (symmetry; apply Z.ltb_lt; simpl length; lia).
    cbn. change (Pos.to_nat 1) with 1. cbn. congruence.
Qed.

(** Depth bound: ids that pass [check_dup_swap]. *)
Definition depth_of (id : string) : option Z :=
  if startswith "SWAP" id then py_int (sdrop 4 id)
  else if startswith "DUP" id then py_int (sdrop 3 id) else None.

Lemma check_dup_swap_depth reach ids : check_dup_swap reach ids = Ok tt ->
  forall id, In id ids -> (startswith "SWAP" id = true \/ startswith "DUP" id = true) ->
  exists n, depth_of id = Some n /\ (1 <= n <= reach)%Z.
Proof.
  intros H id Hid K. pose proof (check_dup_swap_In _ _ H _ Hid) as B.
  unfold depth_of. destruct (startswith "SWAP" id) eqn:S.
  - pose proof (startswith_contains _ _ S) as C.
    pose proof B as B'. unfold check_dup_swap in B'. cbn [for_each] in B'. rewrite C in B'.
    apply bind_ok in B' as ([] & B' & _). apply bind_ok in B' as (n & Hn & _).
    apply of_option_ok in Hn. exists n. split; auto. eapply bound_swap; eauto.
  - destruct K as [K|K]; [discriminate|]. rewrite K.
    pose proof (startswith_contains _ _ K) as C.
    pose proof B as B'. unfold check_dup_swap in B'. cbn [for_each] in B'. rewrite C in B'.
    destruct (contains "SWAP" id) eqn:CS.
    + exfalso. apply bind_ok in B' as ([] & B' & _). apply bind_ok in B' as (n & Hn & _).
      apply of_option_ok in Hn. pose proof (swap_prefix _ _ CS Hn). congruence.
    + apply bind_ok in B' as ([] & B' & _). apply bind_ok in B' as (n & Hn & _).
      apply of_option_ok in Hn. exists n. split; auto. eapply bound_dup; eauto.
Qed.

Lemma check_dup_swap_incl reach ids ids' : (forall x, In x ids' -> In x ids) ->
  check_dup_swap reach ids = Ok tt -> check_dup_swap reach ids' = Ok tt.
Proof.
  intros I H. unfold check_dup_swap.
  induction ids' as [|x l IH]; [reflexivity|].
  pose proof (check_dup_swap_In _ _ H x (I x (or_introl eq_refl))) as B.
  unfold check_dup_swap in B. cbn [for_each] in *. apply bind_ok in B as ([] & B & _).
  rewrite B. cbn [bind]. apply IH. intros z Hz. apply I. simpl; auto.
Qed.

Lemma greedy_tail_bound reach r d a ext l : greedy_tail reach r d a ext = Ok (Some l) ->
  check_dup_swap reach (map snd l) = Ok tt.
Proof.
  unfold greedy_tail. destruct (greedy_tail_body reach r d a ext) as [l'|[]] eqn:E; try discriminate.
  intros [= ->]. unfold greedy_tail_body in E.
  apply bind_ok in E as ([] & _ & E). apply bind_ok in E as ([] & C & E).
  assert (R : forall q, check_dup_swap reach (map snd q) = Ok tt ->
              check_dup_swap reach (map snd (remove_useless q)) = Ok tt).
  { intros q Hq. eapply check_dup_swap_incl; [|exact Hq]. intros x Hx.
    apply in_map_iff in Hx as (z & <- & Hz). apply in_map. apply remove_useless_incl; auto. }
  apply bind_ok in E as (ext1 & E1 & E). destruct ext as [[re ae]|].
  - apply bind_ok in E1 as ([] & Ce & E1). injection E1 as <-.
    destruct ae; [destruct (a && _)|]; injection E as <-; auto.
  - injection E1 as <-. injection E as <-. auto.
Qed.
