(** Proofs about the construction of block specifications. *)
From Verif Require Import Base Lexical SymExecModel AsmModel MachineSpec FootprintSpec LexicalProofs
  CheckerProofs DepsModel SpecModel SpecSem.
Open Scope string_scope. Open Scope list_scope.

(* ---------------------------------------------------------------- *)
(** Identifiers NAME_k. *)
Definition is_digit_char (c : ascii) : bool := ((48 <=? nat_of_ascii c) && (nat_of_ascii c <=? 57))%nat.

Lemma str_nat_digits n c : In c (list_ascii_of_string (str_nat n)) -> is_digit_char c = true.
Proof.
  unfold str_nat. generalize (Nat.to_uint n). intros d.
  assert (E : forall d c, In c (list_ascii_of_string (DecimalString.NilEmpty.string_of_uint d)) -> is_digit_char c = true).
  { clear. induction d; simpl; intros c H; [destruct H|..]; (destruct H as [<-|H]; [reflexivity|auto]). }
  destruct d; simpl; try (intros [<-|H]; [reflexivity|eauto]); auto.
Qed.

Lemma str_nat_no c n : is_digit_char c = false -> ~ In c (list_ascii_of_string (str_nat n)).
Proof. intros H Hin. apply str_nat_digits in Hin. congruence. Qed.

Lemma list_ascii_inj a b : list_ascii_of_string a = list_ascii_of_string b -> a = b.
Proof.
  intros H. rewrite <- (string_of_list_ascii_of_string a), <- (string_of_list_ascii_of_string b).
  congruence.
Qed.

Lemma last_sep_unique {A} (s : A) a b x y : ~ In s x -> ~ In s y -> a ++ s :: x = b ++ s :: y -> a = b /\ x = y.
Proof.
  revert b; induction a as [|c a IH]; intros [|d b] Hx Hy H; simpl in H.
  - injection H as ->. auto.
  - injection H as <- ->. exfalso. apply Hx. apply in_app_iff. simpl; auto.
  - injection H as -> <-. exfalso. apply Hy. apply in_app_iff. simpl; auto.
  - injection H as -> H. destruct (IH _ Hx Hy H) as [-> ->]. auto.
Qed.

Definition id_of (op : string) (n : nat) : string := (op ++ "_" ++ str_nat n)%string.

Lemma id_of_inj a n b m : id_of a n = id_of b m -> a = b /\ n = m.
Proof.
  unfold id_of. intros H. apply (f_equal list_ascii_of_string) in H. rewrite !list_ascii_app in H. simpl in H.
  apply last_sep_unique in H as [H1 H2]; try (apply str_nat_no; reflexivity).
  apply list_ascii_inj in H1. apply list_ascii_inj in H2. apply str_nat_inj in H2. auto.
Qed.

Lemma fresh_inj n m : ("s" ++ str_nat n)%string = ("s" ++ str_nat m)%string -> n = m.
Proof. simpl. intros H. injection H as H. apply str_nat_inj; auto. Qed.

(** [contains] and the separator *)
Lemma prefix_list p s : prefix p s = true <-> exists r, list_ascii_of_string s = list_ascii_of_string p ++ r.
Proof.
  revert s; induction p as [|c p IH]; intros s; simpl.
  - split; [intros _; exists (list_ascii_of_string s); reflexivity|destruct s; reflexivity].
  - destruct s as [|d s]; simpl.
    + split; [discriminate|intros (r & E); discriminate].
    + destruct (ascii_dec c d) as [->|N].
      * rewrite IH. split; intros (r & E); exists r; [congruence|injection E; auto].
      * split; [discriminate|]. intros (r & E). injection E. congruence.
Qed.

Lemma contains_list p s : contains p s = true <->
  exists a r, list_ascii_of_string s = a ++ list_ascii_of_string p ++ r.
Proof.
  induction s as [|c s IH]; cbn [contains]; rewrite orb_true_iff, prefix_list.
  - split.
    + intros [(r & E)|H]; [exists [], r; exact E|discriminate].
    + intros (a & r & E). left. exists r. destruct a; [exact E|discriminate].
  - rewrite IH. split.
    + intros [(r & E)|(a & r & E)]; [exists [], r; exact E|]. exists (c :: a), r. simpl. congruence.
    + intros (a & r & E). destruct a as [|d a]; [left; exists r; exact E|]. right. simpl in E.
      injection E as _ E. eauto.
Qed.

Lemma app_split {A} (a b c d : list A) : a ++ b = c ++ d ->
  exists e, (a = c ++ e /\ d = e ++ b) \/ (c = a ++ e /\ b = e ++ d).
Proof.
  revert c; induction a as [|x a IH]; intros c H; simpl in H.
  - exists c. right. auto.
  - destruct c as [|y c]; simpl in H.
    + exists (x :: a). left. auto.
    + injection H as -> H. destruct (IH _ H) as (e & [[-> ->]|[-> ->]]); exists e; [left|right]; auto.
Qed.

Lemma contains_id_of p op n : p <> "" ->
  (forall c, In c (list_ascii_of_string p) -> c <> "_"%char /\ is_digit_char c = false) ->
  contains p (id_of op n) = true -> contains p op = true.
Proof.
  intros Hp Hc H. apply contains_list in H as (a & r & E). unfold id_of in E.
  rewrite !list_ascii_app in E. simpl in E. apply app_split in E as (e & [[E1 E2]|[E1 E2]]).
  - apply contains_list. rewrite E1.
    apply app_split in E2 as (e' & [[F1 F2]|[F1 F2]]).
    + destruct e' as [|c e']; [exists a, []; rewrite F1, !app_nil_r; auto|].
      simpl in F2. injection F2 as <- F2. exfalso.
      destruct (Hc "_"%char) as [Q _]; [rewrite F1; apply in_app_iff; simpl; auto|congruence].
    + exists a, e'. rewrite F1. reflexivity.
  - destruct e as [|c e]; simpl in E2.
    + destruct (list_ascii_of_string p) as [|c l] eqn:P.
      * destruct p; [congruence|discriminate].
      * injection E2 as <- _. exfalso. destruct (Hc "_"%char) as [Q _]; [simpl; auto|congruence].
    + injection E2 as <- E2. exfalso. destruct (list_ascii_of_string p) as [|d l] eqn:P.
      * destruct p; [congruence|discriminate].
      * destruct (Hc d) as [_ Q]; [simpl; auto|]. apply (str_nat_no d n Q). rewrite E2.
        apply in_app_iff. right. simpl; auto.
Qed.

Lemma prefix_id_of p op n : (forall c, In c (list_ascii_of_string p) -> c <> "_"%char) ->
  prefix p (id_of op n) = true -> prefix p op = true.
Proof.
  intros Hc H. apply prefix_list in H as (r & E). apply prefix_list. unfold id_of in E.
  rewrite !list_ascii_app in E. simpl in E. apply app_split in E as (e & [[E1 E2]|[E1 E2]]).
  - eauto.
  - destruct e as [|c e]; [exists []; rewrite E1, !app_nil_r; reflexivity|]. simpl in E2. injection E2 as <- E2.
    exfalso. apply (Hc "_"%char); auto. rewrite E1. apply in_app_iff. simpl; auto.
Qed.

Lemma paren_arg_none p s : prefix p s = false -> paren_arg p s = None.
Proof. unfold paren_arg. intros ->. reflexivity. Qed.

Definition op_name_ok (op : string) : bool :=
  negb (String.eqb op "POP") && negb (contains "SWAP" op) && negb (contains "DUP" op)
  && negb (prefix "VGET(" op) && negb (prefix "VSET(" op) && negb (String.eqb op "NOP")
  && negb (String.eqb op "PUSH [tag]").

Lemma op_name_ok_name op : op_name_ok op = true -> name_ok op = true.
Proof.
  unfold op_name_ok, name_ok, is_stack_op, vget_arg, vset_arg.
  rewrite !andb_true_iff, !negb_true_iff. intros ((((((A & B) & C) & D) & E) & F) & G).
  rewrite A, B, C, F, !paren_arg_none by assumption. auto.
Qed.

Lemma op_name_ok_id op n : op_name_ok op = true -> name_ok (id_of op n) = true.
Proof.
  unfold op_name_ok, name_ok, is_stack_op, vget_arg, vset_arg.
  rewrite !andb_true_iff, !negb_true_iff. intros ((((((A & B) & C) & D) & E) & F) & G).
  assert (U : In "_"%char (list_ascii_of_string (id_of op n))).
  { unfold id_of. rewrite !list_ascii_app. apply in_app_iff. right. simpl; auto. }
  assert (N : forall s, ~ In "_"%char (list_ascii_of_string s) -> String.eqb (id_of op n) s = false).
  { intros s H. apply String.eqb_neq. intros Q. apply H. rewrite <- Q. exact U. }
  rewrite !N by (simpl; intuition discriminate).
  assert (P : forall p b, prefix p op = b -> (forall c, In c (list_ascii_of_string p) -> c <> "_"%char) ->
     b = false -> prefix p (id_of op n) = false).
  { intros p b H H' ->. apply Bool.not_true_iff_false. intros Q. apply prefix_id_of in Q; auto. congruence. }
  rewrite !paren_arg_none; try (eapply P; eauto; simpl; intuition (subst; discriminate)).
  assert (K : forall p, contains p op = false -> p <> "" ->
     (forall c, In c (list_ascii_of_string p) -> c <> "_"%char /\ is_digit_char c = false) -> contains p (id_of op n) = false).
  { intros p H H1 H2. apply Bool.not_true_iff_false. intros Q. apply contains_id_of in Q; auto. congruence. }
  rewrite !K; auto; try discriminate;
    intros c Hc; simpl in Hc; intuition (subst; try discriminate; reflexivity).
Qed.

(* ---------------------------------------------------------------- *)
(** Environments. *)
Section Env.
Context {V Loc LV : Type}.
Variable sem : semantics V Loc LV.

Lemma bind_vars_other (e : string -> V) xs vs y : ~ In y xs -> bind_vars e xs vs y = e y.
Proof.
  revert vs; induction xs as [|x xs IH]; intros [|v vs] H; simpl; auto.
  destruct (String.eqb_spec y x) as [->|N]; [exfalso; apply H; simpl; auto|].
  apply IH. simpl in H. tauto.
Qed.

Lemma bind_vars_agree (e e' : string -> V) xs vs y : e y = e' y -> bind_vars e xs vs y = bind_vars e' xs vs y.
Proof.
  revert vs; induction xs as [|x xs IH]; intros [|v vs] H; simpl; auto.
  destruct (String.eqb y x); auto.
Qed.

Lemma exec_prog_app p q (s : (string -> V) * (Loc -> LV)) :
  exec_prog sem (p ++ q) s = exec_prog sem q (exec_prog sem p s).
Proof. unfold exec_prog. apply fold_left_app. Qed.

Lemma exec_prog_other p : forall (e : string -> V) (w : Loc -> LV) x, ~ In x (outputs p) ->
  fst (exec_prog sem p (e, w)) x = e x.
Proof.
  induction p as [|i p IH]; intros e w x H; [reflexivity|].
  cbn [exec_prog fold_left]. unfold exec_op. destruct (op_denote sem i (map e (i_inpt i)) w) as [outs w'].
  change (fst (exec_prog sem p (bind_vars e (i_outpt i) outs, w')) x = e x).
  unfold outputs in H. simpl in H. rewrite in_app_iff in H. rewrite IH by (unfold outputs; tauto).
  apply bind_vars_other. tauto.
Qed.

(** Renaming the (fresh) result of a push. *)
Definition ren (o y x : string) : string := if String.eqb x o then y else x.
Definition ren_instr (o y : string) (i : instr) : instr :=
  with_inpt (map (ren o y) (i_inpt i)) (with_outpt (map (ren o y) (i_outpt i)) i).

Lemma op_denote_ren o y i args w : String.eqb (i_disasm i) "PUSH [TAG]" = false \/ ~ In o (i_outpt i) ->
  op_denote sem (ren_instr o y i) args w = op_denote sem i args w.
Proof.
  intros H. unfold op_denote. simpl. destruct (String.eqb (i_disasm i) "PUSH0"); [reflexivity|].
  destruct (String.eqb (i_disasm i) "PUSH"); [reflexivity|].
  destruct (String.eqb (i_disasm i) "PUSH [TAG]") eqn:T; [|reflexivity].
  destruct H as [H|H]; [discriminate|]. destruct (i_outpt i) as [|a l]; [reflexivity|]. simpl.
  unfold ren. destruct (String.eqb_spec a o) as [->|N]; [exfalso; apply H; simpl; auto|reflexivity].
Qed.

Lemma exec_prog_rename o y p : o <> y ->
  (forall i, In i p -> ~ In y (i_inpt i) /\ ~ In y (i_outpt i) /\ ~ In o (i_outpt i)) ->
  forall (e e' : string -> V) (w : Loc -> LV),
  (forall x, x <> o -> x <> y -> e' x = e x) -> e' y = e o ->
  snd (exec_prog sem (map (ren_instr o y) p) (e', w)) = snd (exec_prog sem p (e, w))
  /\ (forall x, x <> o -> x <> y ->
        fst (exec_prog sem (map (ren_instr o y) p) (e', w)) x = fst (exec_prog sem p (e, w)) x)
  /\ fst (exec_prog sem (map (ren_instr o y) p) (e', w)) y = fst (exec_prog sem p (e, w)) o.
Proof.
  intros Ho. induction p as [|i p IH]; intros Hp e e' w H1 H2; [cbn; auto|].
  destruct (Hp i (or_introl eq_refl)) as (A & B & C).
  cbn [map exec_prog fold_left]. unfold exec_op.
  rewrite op_denote_ren by (right; exact C).
  assert (Ea : map e' (i_inpt (ren_instr o y i)) = map e (i_inpt i)).
  { simpl. rewrite map_map. apply map_ext_in. intros x Hx. unfold ren.
    destruct (String.eqb_spec x o) as [->|N]; [exact H2|]. apply H1; auto. intros ->. tauto. }
  rewrite Ea. destruct (op_denote sem i (map e (i_inpt i)) w) as [outs w'].
  assert (Eo : i_outpt (ren_instr o y i) = i_outpt i).
  { simpl. rewrite <- (map_id (i_outpt i)) at 2. apply map_ext_in. intros x Hx. unfold ren.
    destruct (String.eqb_spec x o) as [->|N]; tauto. }
  rewrite Eo.
  apply (IH (fun j Hj => Hp j (or_intror Hj)) (bind_vars e (i_outpt i) outs) (bind_vars e' (i_outpt i) outs) w').
  - intros x N1 N2. apply bind_vars_agree. auto.
  - rewrite (bind_vars_other e'), (bind_vars_other e) by auto. exact H2.
Qed.
End Env.

(* ---------------------------------------------------------------- *)
(** Dictionaries. *)
Lemma key_eqb_eq a b : key_eqb a b = true <-> a = b.
Proof.
  unfold key_eqb. destruct a as [a1 a2], b as [b1 b2]; simpl. rewrite andb_true_iff, String.eqb_eq, list_eqb_eq.
  split; [intros [-> ->]; auto|intros H; injection H; auto].
Qed.
Lemma key_eqb_refl a : key_eqb a a = true.
Proof. apply key_eqb_eq; auto. Qed.

Lemma dict_get_In {B} x (d : list (string * B)) y : dict_get x d = Some y -> In (x, y) d.
Proof.
  unfold dict_get. destruct (find _ d) as [[a b]|] eqn:F; [|discriminate]. simpl. intros [= ->].
  apply find_some in F as [F E]. simpl in E. apply String.eqb_eq in E. subst. exact F.
Qed.

Lemma map_get_In k st n : map_get k st = Some n -> In (k, n) (b_map st).
Proof.
  unfold map_get. destruct (find _ _) as [[a b]|] eqn:F; [|discriminate]. simpl. intros [= ->].
  apply find_some in F as [F E]. simpl in E. apply key_eqb_eq in E. subst. exact F.
Qed.

Lemma idx_get_bump nm nm' st l : b_idx l = bump nm st ->
  idx_get nm' l = if String.eqb nm' nm then S (idx_get nm st) else idx_get nm' st.
Proof.
  intros E. unfold idx_get, dict_get_default, dict_get. rewrite E. unfold bump. simpl.
  rewrite (String.eqb_sym nm nm'). destruct (String.eqb nm' nm); reflexivity.
Qed.
