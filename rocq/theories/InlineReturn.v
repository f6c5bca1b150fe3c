(** The list of exits of a component after inlining. *)
From Verif Require Import Base UtilModel LiveModel CfgModel CfgProps RenameModel InlineModel InlineProps.
Open Scope string_scope. Open Scope list_scope.

Lemma for_each_kept {A S} (R : S -> list string) (step : S -> A -> result S) l : forall s s', (forall s0 a s1, In a l -> step s0 a = Ok s1 -> R s1 = R s0) -> for_each step l s = Ok s' -> R s' = R s.
Proof.
  induction l as [|a l IH]; intros s s' H E; cbn in E; [congruence|]. destruct (step s a) as [s1|e] eqn:Q; [|discriminate]. cbn in E.
  rewrite (IH s1 s'); [apply (H s a s1); [now left|exact Q]|intros s0 b s2 I; apply H; now right|exact E].
Qed.
Ltac unbind H := repeat match type of H with
  | bind ?m _ = Ok _ => let Q := fresh "Q" in destruct m eqn:Q; [cbn [bind] in H|discriminate] end.
Lemma modify_successors_return id p n g g' : modify_successors id p n g = Ok g' -> cl_return g' = cl_return g.
Proof.
  unfold modify_successors. intros H. unbind H. destruct (match p with None => true | Some _ => opt_eqb (cb_jump_to a) p end); [injection H as <-; reflexivity|]. unbind H. injection H as <-. reflexivity.
Qed.
Lemma modify_comes_from_return id p n g g' : modify_comes_from id p n g = Ok g' -> cl_return g' = cl_return g.
Proof. unfold modify_comes_from. intros H. unbind H. destruct p as [old|]; [|injection H as <-; reflexivity]. unbind H. injection H as <-. reflexivity. Qed.
Lemma opt_modify_return t o n g g' : opt_modify_comes_from t o n g = Ok g' -> cl_return g' = cl_return g.
Proof. destruct t; cbn; [apply modify_comes_from_return|congruence]. Qed.
Lemma add_block_return id b st g g' : add_block id b st g = Ok g' -> cl_return g' = if String.eqb (cb_type b) "FunctionReturn" then cl_return g ++ [id] else cl_return g.
Proof. unfold add_block. intros H. unbind H. injection H as <-. reflexivity. Qed.
Lemma remove_block_return id g g' : remove_block id g = Ok g' -> cl_return g' = without id (cl_return g).
Proof. unfold remove_block. destruct (lookup id (cl_blocks g)); [|discriminate]. intros H. injection H as <-. reflexivity. Qed.
Lemma successors_return l o n g g' : for_each (fun g p => modify_successors p o n g) l g = Ok g' -> cl_return g' = cl_return g.
Proof. apply (for_each_kept cl_return). intros s0 x s1 _. apply modify_successors_return. Qed.
Lemma split_block_return id n g g' : split_block id n g = Ok g' -> cl_return g' = without id (cl_return g) \/ cl_return g' = without id (cl_return g) ++ [second_id id].
Proof.
  unfold split_block. intros H. unbind H. apply add_block_return in H.
  repeat match goal with
  | E : add_block _ _ _ _ = Ok _ |- _ => apply add_block_return in E; cbn in E
  | E : remove_block _ _ = Ok _ |- _ => apply remove_block_return in E
  | E : opt_modify_comes_from _ _ _ _ = Ok _ |- _ => apply opt_modify_return in E
  | E : for_each _ _ _ = Ok _ |- _ => apply successors_return in E
  end.
  repeat match goal with E : cl_return ?x = _ |- _ => rewrite E in *; clear E end.
  destruct (String.eqb _ _); auto.
Qed.
Lemma pop_instr_return id g r : pop_instr id g = Ok r -> cl_return (snd r) = cl_return g.
Proof. unfold pop_instr. intros H. unbind H. destruct (rev (cb_instrs a)); [discriminate|]. injection H as <-. reflexivity. Qed.
Lemma include_blocks_return f g g' : include_blocks f g = Ok g' -> cl_return g' = cl_return g.
Proof.
  apply (for_each_kept cl_return). intros s0 [x b] s1 _ H. apply add_block_return in H. cbn [fst snd] in H. rewrite H. unfold no_return. destruct (String.eqb (cb_type b) "FunctionReturn") eqn:E; cbn; [reflexivity|now rewrite E].
Qed.
Lemma connect_exit_return s st x st' : connect_exit s st x = Ok st' -> cl_return (fst st') = cl_return (fst st).
Proof.
  unfold connect_exit. intros H. unbind H. destruct (rev (cb_instrs a1)) as [|i r]; [discriminate|]. unbind H. injection H as <-. cbn [fst]. apply modify_successors_return in Q. destruct (mem x (cb_comes_from a0)); exact Q.
Qed.
Lemma remove_return_return l g g' : for_each remove_return l g = Ok g' -> cl_return g' = cl_return g.
Proof. apply (for_each_kept cl_return). intros s0 x s1 _ R. unfold remove_return in R. unbind R. injection R as <-. eapply pop_instr_return; eauto. Qed.
Lemma connect_return s l st st' : for_each (connect_exit s) l st = Ok st' -> cl_return (fst st') = cl_return (fst st).
Proof. apply (for_each_kept (fun st => cl_return (fst st))). intros s0 x s1 _. apply connect_exit_return. Qed.
Theorem inline_return pos id g f g' : inline_function pos id g f = Ok g' -> cl_return g' = without id (cl_return g) \/ cl_return g' = without id (cl_return g) ++ [second_id id].
Proof.
  unfold inline_function. intros H. unbind H. cbn zeta in H. unbind H. apply remove_return_return in H. rewrite H. clear H.
  match goal with E : split_block _ _ ?x = Ok ?y, E2 : include_blocks _ ?z = Ok ?x |- _ => apply include_blocks_return in E2; apply split_block_return in E; rewrite E2 in E; clear E2; rename E into S end.
  match goal with E : pop_instr _ _ = Ok _ |- _ => apply pop_instr_return in E; rename E into P end.
  match goal with E : modify_successors _ _ _ _ = Ok _ |- _ => apply modify_successors_return in E; rename E into MS end.
  match goal with E : modify_comes_from _ _ _ _ = Ok _ |- _ => apply modify_comes_from_return in E; rename E into MC end.
  match goal with E : for_each (connect_exit _) _ _ = Ok _ |- _ => apply connect_return in E; cbn in E; rename E into CE end.
  match goal with E : _ = Ok ?r |- cl_return ?r = _ \/ _ => assert (L : cl_return r = cl_return (fst a10)); [|rewrite L, CE, MC, MS, P; exact S]; rename E into H end.
  destruct (snd a10) as [|l1 [|l2 l]]; [congruence| |].
  - unfold rename_output_args in H. unbind H. injection H as <-. reflexivity.
  - unfold insert_phis in H. unbind H. injection H as <-. reflexivity.
Qed.
Lemma without_In x l y : In y (without x l) <-> In y l /\ y <> x.
Proof. unfold without. rewrite filter_In. destruct (String.eqb_spec y x); cbn; intuition congruence. Qed.
Theorem inline_return_once pos id g f g' : inline_function pos id g f = Ok g' -> NoDup (cl_return g) -> ~ In (second_id id) (cl_return g) -> NoDup (cl_return g').
Proof.
  intros E N I. assert (NW : NoDup (without id (cl_return g))) by (now apply NoDup_filter). destruct (inline_return pos id g f g' E) as [->| ->]; [exact NW|].
  apply (NoDup_Add (a := second_id id) (l := without id (cl_return g))); [|split; [exact NW|]].
  - rewrite <- (app_nil_r (without id (cl_return g))) at 1. apply Add_app.
  - rewrite without_In. tauto.
Qed.
