(** Proofs about [LocalConstModel]. *)
From Verif Require Import Base UtilModel UtilProps LiveModel CfgModel JumpModel ConstModel LocalConstModel LocalConstSpec.
From Verif Require UnifyProps.
Notation lookup := UtilModel.lookup.
Open Scope string_scope. Open Scope list_scope.

Definition constant_var (v : string) : Prop := exists n, v = ("c" ++ str_nat n)%string.
Record names_ok (free : nat) (l : introduced) : Prop := {
  no_in : forall a v, In (a, v) l -> prefix "0x" a = true /\ exists n, n < free /\ v = ("c" ++ str_nat n)%string;
  no_once : NoDup (map snd l)
}.
Definition plan_ok (st : plan * nat) : Prop := forall y, names_ok (snd st) (names_of (fst st) y).
Lemma dict_set_end {A} k (v : A) d : lookup k d = None -> dict_set k v d = d ++ [(k, v)].
Proof. induction d as [|[k' v'] d IH]; cbn; [reflexivity|]. destruct (String.eqb k k') eqn:E; destruct (String.eqb k' k) eqn:E'; intros H; try discriminate; try (f_equal; apply IH; exact H); apply String.eqb_eq in E' || apply String.eqb_eq in E; subst; rewrite String.eqb_refl in *; discriminate. Qed.
Lemma names_of_set y l p z : names_of (dict_set y l p) z = if String.eqb y z then l else names_of p z.
Proof. unfold names_of. rewrite UnifyProps.lookup_dict_set. destruct (String.eqb y z); reflexivity. Qed.
Lemma plan_argument_ok x b i ka st st' : plan_ok st -> plan_argument x b i st ka = Ok st' -> plan_ok st' /\ snd st <= snd st'.
Proof.
  destruct st as [p free], ka as [k a]. intros H E. unfold plan_argument in E. destruct (prefix "0x" a && negb _) eqn:C; [|injection E as <-; auto]. apply andb_true_iff in C as (Pa & _).
  destruct (if String.eqb (li_op i) "PhiFunction" then of_option (nth_error (cb_entries b) k) else Ok x) as [y|]; cbn [bind] in E; [|discriminate]. destruct (lookup a (names_of p y)) eqn:L; [injection E as <-; auto|]. injection E as <-. cbn [snd]. split; [|lia].
  intros z. cbn [fst snd]. rewrite names_of_set. destruct (String.eqb_spec y z) as [<-|N].
  - rewrite (dict_set_end _ _ _ L). destruct (H y) as [A B]. cbn [fst snd] in A, B. split.
    + intros a' v I. apply in_app_iff in I as [I|[Q|[]]]; [destruct (A _ _ I) as (P & n & Ln & ->); split; [exact P|]; exists n; split; [lia|reflexivity]|]. injection Q as <- <-. split; [exact Pa|]. exists free. split; [lia|reflexivity].
    + rewrite map_app. cbn. assert (F : ~ In ("c" ++ str_nat free)%string (map snd (names_of p y))).
      { intros I. apply in_map_iff in I as ([a' v] & Q & I). cbn in Q. destruct (A _ _ I) as (_ & n & Ln & ->). injection Q as Q. apply str_nat_inj in Q. lia. }
      clear -B F. induction (map snd (names_of p y)) as [|z l IH]; cbn in *; [repeat constructor; auto|]. inversion B as [|? ? N1 N2]; subst. constructor; [rewrite in_app_iff; intros [I|[I|[]]]; [contradiction|apply F; auto]|apply IH; tauto].
  - destruct (H z) as [A B]. split; [|exact B]. intros a' v I. destruct (A a' v I) as (P & n & Ln & ->). cbn [snd] in Ln. split; [exact P|]. exists n. split; [lia|reflexivity].
Qed.
Lemma for_each_inv {A S} (f : S -> A -> result S) (P : S -> Prop) : (forall a s s', P s -> f s a = Ok s' -> P s') -> forall l s s', P s -> for_each f l s = Ok s' -> P s'.
Proof. intros H. induction l as [|a l IH]; intros s s' Ps E; cbn in E; [injection E as <-; exact Ps|]. destruct (f s a) as [s1|] eqn:F; cbn [bind] in E; [|discriminate]. eauto. Qed.
Lemma plan_blocks_ok g free st : plan_blocks g free = Ok st -> plan_ok st.
Proof.
  apply for_each_inv; [|intros y; cbn; split; [intros a v []|constructor]]. intros xb s s' H. apply for_each_inv; [|exact H]. intros i s1 s2 H1. apply for_each_inv; [|exact H1]. intros ka s3 s4 H3 E. exact (proj1 (plan_argument_ok _ _ _ _ _ _ H3 E)).
Qed.

(** The new code of a block. *)
Lemma inserted k (l : introduced) (c : list linstr) : k <= length c -> fold_left (fun l cv => insert_at k (push_constant (snd cv) (fst cv)) l) l c = firstn k c ++ rev (map (fun cv => push_constant (snd cv) (fst cv)) l) ++ skipn k c.
Proof.
  revert c. induction l as [|cv l IH]; intros c Le; cbn [fold_left map rev app]; [symmetry; apply firstn_skipn|]. assert (F : length (firstn k c) = k) by now apply firstn_length_le.
  rewrite IH by (unfold insert_at; rewrite app_length; cbn; lia). unfold insert_at.
  rewrite firstn_app, F, Nat.sub_diag, firstn_all2 by lia. cbn [firstn]. rewrite app_nil_r. rewrite skipn_app, F, Nat.sub_diag, skipn_all2 by lia. cbn [skipn app]. rewrite <- !app_assoc. reflexivity.
Qed.
Lemma first_other_le l : first_other l <= length l.
Proof. induction l as [|i l IH]; cbn; [lia|]. destruct (_ || _); lia. Qed.
Lemma first_other_before l i : In i (firstn (first_other l) l) -> li_op i = "PhiFunction" \/ li_op i = "LiteralAssignment".
Proof.
  induction l as [|j l IH]; cbn; [intros []|]. destruct (_ || _) eqn:E; cbn; [|intros []]. intros [<-|I]; [|auto]. apply orb_true_iff in E as [E|E]; apply String.eqb_eq in E; auto.
Qed.
Lemma planned_op p x b i : li_op (planned p x b i) = li_op i.
Proof. unfold planned. destruct (String.eqb _ "PhiFunction"); [reflexivity|]. destruct (String.eqb _ "LiteralAssignment"); reflexivity. Qed.
Lemma planned_outs p x b i : li_outs (planned p x b i) = li_outs i.
Proof. unfold planned. destruct (String.eqb _ "PhiFunction"); [reflexivity|]. destruct (String.eqb _ "LiteralAssignment"); reflexivity. Qed.
Lemma planned_lits p x b i : li_lits (planned p x b i) = li_lits i.
Proof. unfold planned. destruct (String.eqb _ "PhiFunction"); [reflexivity|]. destruct (String.eqb _ "LiteralAssignment"); reflexivity. Qed.
Lemma block_code p x b : cb_instrs (plan_block p x b) = map (planned p x b) (firstn (first_other (cb_instrs b)) (cb_instrs b)) ++ rev (map (fun cv => push_constant (snd cv) (fst cv)) (names_of p x)) ++ map (planned p x b) (skipn (first_other (cb_instrs b)) (cb_instrs b)).
Proof.
  unfold plan_block. cbn [cb_instrs set_instrs]. rewrite inserted by (rewrite map_length; apply first_other_le). rewrite firstn_map, skipn_map. reflexivity.
Qed.
Lemma filter_map_op (q : linstr -> bool) p x b l : (forall i, q (planned p x b i) = q i) -> filter q (map (planned p x b) l) = map (planned p x b) (filter q l).
Proof. intros H. induction l as [|i l IH]; [reflexivity|]. cbn. rewrite H. destruct (q i); cbn; [f_equal|]; exact IH. Qed.
Lemma filter_rev_push (q : linstr -> bool) (l : introduced) v : (forall cv, q (push_constant (snd cv) (fst cv)) = v) -> filter q (rev (map (fun cv => push_constant (snd cv) (fst cv)) l)) = if v then rev (map (fun cv => push_constant (snd cv) (fst cv)) l) else [].
Proof.
  intros H. assert (K : forall m, (forall i, In i m -> exists cv : string * string, i = push_constant (snd cv) (fst cv)) -> filter q m = if v then m else []).
  { induction m as [|i m IH]; intros F; [destruct v; reflexivity|]. cbn. destruct (F i (or_introl eq_refl)) as (cv & ->). rewrite H, (IH (fun j J => F j (or_intror J))). destruct v; reflexivity. }
  apply K. intros i I. apply in_rev, in_map_iff in I as (cv & <- & _). eauto.
Qed.
Lemma new_phis p x b : phis (plan_block p x b) = map (planned p x b) (phis b).
Proof.
  unfold phis. rewrite block_code, !filter_app, (filter_rev_push _ _ false) by reflexivity. rewrite !filter_map_op by (intros i; rewrite planned_op; reflexivity). cbn [app]. rewrite <- map_app, <- filter_app, firstn_skipn. reflexivity.
Qed.
Lemma new_others p x b : others (plan_block p x b) = map (planned p x b) (filter (fun i => negb (String.eqb (li_op i) "PhiFunction")) (firstn (first_other (cb_instrs b)) (cb_instrs b)))
  ++ rev (map (fun cv => push_constant (snd cv) (fst cv)) (names_of p x)) ++ map (planned p x b) (filter (fun i => negb (String.eqb (li_op i) "PhiFunction")) (skipn (first_other (cb_instrs b)) (cb_instrs b))).
Proof. unfold others. rewrite block_code, !filter_app, (filter_rev_push _ _ true) by reflexivity. rewrite !filter_map_op by (intros i; rewrite planned_op; reflexivity). reflexivity. Qed.

(** Runs. *)
Section Runs.
Variables (V W : Type) (const : string -> V) (meaning : string -> option (list string) -> W -> list V -> W * list V).
Hypothesis push_means : forall w c, meaning "push" (Some [c]) w [] = (w, [const c]).
Notation env := (env V).
Notation value := (value V const).
Notation assign := (assign V).
Notation exec := (exec V W const meaning).
Notation exec_all := (exec_all V W const meaning).
Definition agree (e e' : env) : Prop := forall v, ~ constant_var v -> e' v = e v.
Definition holds (l : introduced) (e' : env) : Prop := forall a v, In (a, v) l -> e' v = const a.
Definition plain (i : linstr) : Prop := (forall v, In v (li_ins i) -> ~ constant_var v) /\ (forall v, In v (li_outs i) -> ~ constant_var v).
Lemma no_hex v : constant_var v -> prefix "0x" v = false.
Proof. intros (n & ->). reflexivity. Qed.
Lemma value_same free l e e' a : names_ok free l -> agree e e' -> holds l e' -> ~ constant_var a -> value e' (constant_name l a) = value e a.
Proof.
  intros N A H F. unfold constant_name. destruct (lookup a l) as [v|] eqn:L.
  - apply UtilProps.lookup_In in L. destruct (no_in _ _ N _ _ L) as (P & n & _ & Q). unfold LocalConstSpec.value. rewrite P, no_hex by (exists n; exact Q). exact (H _ _ L).
  - unfold LocalConstSpec.value. destruct (prefix "0x" a); [reflexivity|]. exact (A a F).
Qed.
Lemma value_plain e e' a : agree e e' -> ~ constant_var a -> value e' a = value e a.
Proof. intros A F. unfold LocalConstSpec.value. destruct (prefix "0x" a); [reflexivity|exact (A a F)]. Qed.
Lemma assign_other outs : forall vs e v, ~ In v outs -> assign outs vs e v = e v.
Proof. induction outs as [|o outs IH]; intros [|x vs] e v N; cbn; try reflexivity. rewrite IH by (intros I; apply N; right; exact I). destruct (string_dec v o) as [->|]; [exfalso; apply N; left; reflexivity|reflexivity]. Qed.
Lemma assign_agree outs : forall vs e e', agree e e' -> agree (assign outs vs e) (assign outs vs e').
Proof. induction outs as [|o outs IH]; intros [|x vs] e e' A; cbn; try exact A. apply IH. intros v F. destruct (string_dec v o); [reflexivity|exact (A v F)]. Qed.
Lemma assign_holds l free outs vs e : names_ok free l -> (forall v, In v outs -> ~ constant_var v) -> holds l e -> holds l (assign outs vs e).
Proof. intros N F H a v I. rewrite assign_other; [exact (H _ _ I)|]. intros O. destruct (no_in _ _ N _ _ I) as (_ & n & _ & Q). apply (F v O). exists n. exact Q. Qed.
Lemma exec_new i j e e' w : li_op j = li_op i -> li_lits j = li_lits i -> li_outs j = li_outs i -> map (value e') (li_ins j) = map (value e) (li_ins i) -> agree e e' ->
  agree (fst (exec i (e, w))) (fst (exec j (e', w))) /\ snd (exec i (e, w)) = snd (exec j (e', w)).
Proof. intros E1 E2 E3 E4 A. unfold LocalConstSpec.exec. cbn [fst snd]. rewrite E1, E2, E3, E4. split; [apply assign_agree, A|reflexivity]. Qed.
(** The instructions before the new ones. *)
Lemma before p x b l : (forall i, In i l -> li_op i = "LiteralAssignment" /\ plain i) -> forall e e' w, agree e e' ->
  agree (fst (exec_all l (e, w))) (fst (exec_all (map (planned p x b) l) (e', w))) /\ snd (exec_all l (e, w)) = snd (exec_all (map (planned p x b) l) (e', w)).
Proof.
  induction l as [|i l IH]; intros F e e' w A; cbn; [auto|]. destruct (F i (or_introl eq_refl)) as (O & P & _).
  assert (Q : planned p x b i = i) by (unfold planned; rewrite O; reflexivity). rewrite Q.
  destruct (exec_new i i e e' w eq_refl eq_refl eq_refl) as (A1 & S1); [|exact A|].
  - apply map_ext_in. intros a I. exact (value_plain _ _ _ A (P a I)).
  - destruct (exec i (e, w)) as [e1 w1], (exec i (e', w)) as [e1' w1']. cbn in A1, S1. subst w1'. apply IH; [intros j J; apply F; right; exact J|exact A1].
Qed.
(** The instructions after the new ones. *)
Lemma after p x b free l : names_ok free (names_of p x) -> (forall i, In i l -> li_op i <> "PhiFunction" /\ plain i) -> forall e e' w, agree e e' -> holds (names_of p x) e' ->
  agree (fst (exec_all l (e, w))) (fst (exec_all (map (planned p x b) l) (e', w))) /\ snd (exec_all l (e, w)) = snd (exec_all (map (planned p x b) l) (e', w))
  /\ holds (names_of p x) (fst (exec_all (map (planned p x b) l) (e', w))).
Proof.
  intros N. induction l as [|i l IH]; intros F e e' w A H; cbn; [auto|]. destruct (F i (or_introl eq_refl)) as (O & P & P').
  destruct (exec_new i (planned p x b i) e e' w (planned_op _ _ _ _) (planned_lits _ _ _ _) (planned_outs _ _ _ _)) as (A1 & S1); [|exact A|].
  - unfold planned. destruct (String.eqb_spec (li_op i) "PhiFunction"); [contradiction|]. destruct (String.eqb (li_op i) "LiteralAssignment").
    + apply map_ext_in. intros a I. exact (value_plain _ _ _ A (P a I)).
    + cbn [li_ins with_ins]. rewrite map_map. apply map_ext_in. intros a I. exact (value_same _ _ _ _ _ N A H (P a I)).
  - assert (H1 : holds (names_of p x) (fst (exec (planned p x b i) (e', w)))).
    { unfold LocalConstSpec.exec. cbn [fst]. apply (assign_holds _ free); [exact N| |exact H]. rewrite planned_outs. exact P'. }
    destruct (exec i (e, w)) as [e1 w1], (exec (planned p x b i) (e', w)) as [e1' w1']. cbn in A1, S1, H1. subst w1'. apply IH; [intros j J; apply F; right; exact J|exact A1|exact H1].
Qed.
(** The new instructions. *)
Lemma pushes (l : introduced) : NoDup (map snd l) -> forall e w, exists e1, exec_all (rev (map (fun cv => push_constant (snd cv) (fst cv)) l)) (e, w) = (e1, w) /\ holds l e1 /\ (forall v, ~ In v (map snd l) -> e1 v = e v).
Proof.
  induction l as [|[a v] l IH]; intros N e w; cbn; [exists e; split; [reflexivity|]; split; [intros ? ? []|auto]|]. inversion N as [|? ? N1 N2]; subst.
  destruct (IH N2 e w) as (e1 & E & H & O). unfold LocalConstSpec.exec_all in *. rewrite fold_left_app, E. cbn. unfold LocalConstSpec.exec. cbn. rewrite push_means. cbn. eexists. split; [reflexivity|]. split.
  - intros a' v' [Q|I]; [injection Q as <- <-; destruct (string_dec v v); congruence|]. destruct (string_dec v' v) as [->|]; [|exact (H _ _ I)]. exfalso. apply N1. apply in_map_iff. exists (a', v). auto.
  - intros v' F. destruct (string_dec v' v) as [->|]; [exfalso; apply F; left; reflexivity|]. apply O. intros I. apply F. right. exact I.
Qed.
Lemma exec_all_app l l' st : exec_all (l ++ l') st = exec_all l' (exec_all l st).
Proof. unfold LocalConstSpec.exec_all. apply fold_left_app. Qed.
Lemma others_same p x b free : names_ok free (names_of p x) -> (forall i, In i (cb_instrs b) -> plain i) -> forall e e' w, agree e e' ->
  agree (fst (exec_all (others b) (e, w))) (fst (exec_all (others (plan_block p x b)) (e', w))) /\ snd (exec_all (others b) (e, w)) = snd (exec_all (others (plan_block p x b)) (e', w))
  /\ holds (names_of p x) (fst (exec_all (others (plan_block p x b)) (e', w))).
Proof.
  intros N P e e' w A. rewrite new_others. set (k := first_other (cb_instrs b)). set (q := fun i => negb (String.eqb (li_op i) "PhiFunction")).
  assert (E : others b = filter q (firstn k (cb_instrs b)) ++ filter q (skipn k (cb_instrs b))) by (rewrite <- filter_app, firstn_skipn; reflexivity). rewrite E, !exec_all_app.
  destruct (before p x b (filter q (firstn k (cb_instrs b)))) with (e := e) (e' := e') (w := w) as (A1 & S1); [|exact A|].
  { intros i I. apply filter_In in I as (I & Q). split; [|apply P; rewrite <- (firstn_skipn k); apply in_app_iff; left; exact I]. destruct (first_other_before _ _ I) as [O|O]; [|exact O]. unfold q in Q. rewrite O in Q. discriminate Q. }
  destruct (exec_all (filter q (firstn k (cb_instrs b))) (e, w)) as [e1 w1], (exec_all (map (planned p x b) (filter q (firstn k (cb_instrs b)))) (e', w)) as [e1' w1']. cbn in A1, S1. subst w1'.
  destruct (pushes (names_of p x) (no_once _ _ N) e1' w1) as (e2 & E2 & H & O). rewrite E2. apply (after p x b free); [exact N| | |exact H].
  - intros i I. apply filter_In in I as (I & Q). split; [intros O'; unfold q in Q; rewrite O' in Q; discriminate Q|]. apply P. rewrite <- (firstn_skipn k). apply in_app_iff. right. exact I.
  - intros v F. rewrite O; [exact (A1 v F)|]. intros I. apply in_map_iff in I as ([a v'] & Q & I). cbn in Q. subst v'. destruct (no_in _ _ N _ _ I) as (_ & n & _ & Q). apply F. exists n. exact Q.
Qed.
Lemma argument_new p from args entries : argument_from from (map (fun ae => constant_name (names_of p (snd ae)) (fst ae)) (combine args entries)) entries = option_map (constant_name (names_of p from)) (argument_from from args entries).
Proof. revert entries. induction args as [|a args IH]; intros [|y entries]; cbn; try reflexivity. destruct (string_dec y from) as [->|]; [reflexivity|apply IH]. Qed.
Lemma argument_in from args entries a : argument_from from args entries = Some a -> In a args /\ In from entries.
Proof. revert entries. induction args as [|a' args IH]; intros [|y entries]; cbn; try discriminate. destruct (string_dec y from) as [->|]; [intros Q; injection Q as <-; auto|intros Q; destruct (IH _ Q); auto]. Qed.
Lemma enter_same p x b free from e e' : names_ok free (names_of p from) -> (forall i, In i (cb_instrs b) -> plain i) -> agree e e' -> holds (names_of p from) e' \/ ~ In from (cb_entries b) ->
  agree (enter V const from b e) (enter V const from (plan_block p x b) e').
Proof.
  intros N P A H. unfold enter. rewrite new_phis.
  assert (K : forall l, (forall i, In i l -> li_op i = "PhiFunction" /\ plain i) -> forall f f', agree f f' ->
    agree (fold_left (fun e' i => match argument_from from (li_ins i) (cb_entries b) with Some a => assign (li_outs i) [value e a] e' | None => e' end) l f)
          (fold_left (fun f i => match argument_from from (li_ins i) (cb_entries (plan_block p x b)) with Some a => assign (li_outs i) [value e' a] f | None => f end) (map (planned p x b) l) f')).
  { induction l as [|i l IH]; intros F f f' Af; [exact Af|]. cbn [fold_left map]. apply IH; [intros j J; apply F; right; exact J|]. destruct (F i (or_introl eq_refl)) as (O & Pi & _).
    rewrite planned_outs. change (cb_entries (plan_block p x b)) with (cb_entries b).
    assert (Q : li_ins (planned p x b i) = map (fun ae => constant_name (names_of p (snd ae)) (fst ae)) (combine (li_ins i) (cb_entries b))) by (unfold planned; rewrite O; reflexivity). rewrite Q, argument_new.
    destruct (argument_from from (li_ins i) (cb_entries b)) as [a|] eqn:E; cbn [option_map]; [|exact Af]. destruct (argument_in _ _ _ _ E) as (Ia & Ie). destruct H as [H|H]; [|contradiction].
    rewrite (value_same free _ e e' a N A H (Pi a Ia)). apply assign_agree, Af. }
  apply K; [|exact A]. intros i I. apply filter_In in I as (I & Q). apply String.eqb_eq in Q. auto.
Qed.
Lemma lookup_blocks p x bs : lookup x (map (fun xb => (fst xb, plan_block p (fst xb) (snd xb))) bs) = option_map (plan_block p x) (lookup x bs).
Proof. induction bs as [|[y b] bs IH]; cbn; [reflexivity|]. destruct (String.eqb_spec y x) as [->|]; [reflexivity|exact IH]. Qed.
Lemma runs_same p free bs : plan_ok (p, free) -> (forall x b i, In (x, b) bs -> In i (cb_instrs b) -> plain i) -> forall path from e e' w, agree e e' -> (holds (names_of p from) e' \/ forall x b, In (x, b) bs -> ~ In from (cb_entries b)) ->
  match run V W const meaning bs from path (e, w) with
  | Some (e1, w1) => exists e1', run V W const meaning (map (fun xb => (fst xb, plan_block p (fst xb) (snd xb))) bs) from path (e', w) = Some (e1', w1) /\ agree e1 e1'
  | None => run V W const meaning (map (fun xb => (fst xb, plan_block p (fst xb) (snd xb))) bs) from path (e', w) = None
  end.
Proof.
  intros N P. induction path as [|x path IH]; intros from e e' w A H; cbn [run]; [exists e'; auto|]. rewrite lookup_blocks. destruct (lookup x bs) as [b|] eqn:L; cbn [option_map]; [|reflexivity]. apply UtilProps.lookup_In in L. cbn [fst snd].
  assert (Pb : forall i, In i (cb_instrs b) -> plain i) by (intros i I; exact (P _ _ _ L I)).
  assert (A0 : agree (enter V const from b e) (enter V const from (plan_block p x b) e')) by (apply (enter_same p x b free); [exact (N from)|exact Pb|exact A|destruct H as [H|H]; [left; exact H|right; exact (H _ _ L)]]).
  destruct (others_same p x b free (N x) Pb _ _ w A0) as (A1 & S1 & H1).
  destruct (exec_all (others b) (enter V const from b e, w)) as [e1 w1], (exec_all (others (plan_block p x b)) (enter V const from (plan_block p x b) e', w)) as [e1' w1']. cbn in A1, S1, H1. subst w1'. apply IH; auto.
Qed.
End Runs.

(** What the plan covers. *)
Definition grows (st st' : plan * nat) : Prop := forall y a, lookup a (names_of (fst st) y) <> None -> lookup a (names_of (fst st') y) <> None.
Lemma for_each_all {A S} (f : S -> A -> result S) (R : S -> S -> Prop) (Q : A -> S -> Prop) : (forall s, R s s) -> (forall s1 s2 s3, R s1 s2 -> R s2 s3 -> R s1 s3) -> (forall a s s', Q a s -> R s s' -> Q a s') ->
  (forall a s s', f s a = Ok s' -> R s s' /\ Q a s') -> forall l s s', for_each f l s = Ok s' -> R s s' /\ forall a, In a l -> Q a s'.
Proof.
  intros Rr Rt Rq H. induction l as [|a l IH]; intros s s' E; cbn in E; [injection E as <-; split; [apply Rr|intros ? []]|]. destruct (f s a) as [s1|] eqn:F; cbn [bind] in E; [|discriminate].
  destruct (H _ _ _ F) as (R1 & Q1), (IH _ _ E) as (R2 & Q2). split; [eauto|]. intros a' [<-|I]; eauto.
Qed.
Definition covered (x : string) (b : cblock) (i : linstr) (ka : nat * string) (st : plan * nat) : Prop :=
  prefix "0x" (snd ka) = true -> li_op i <> "LiteralAssignment" -> forall y, (if String.eqb (li_op i) "PhiFunction" then nth_error (cb_entries b) (fst ka) = Some y else x = y) -> lookup (snd ka) (names_of (fst st) y) <> None.
Lemma grows_trans s1 s2 s3 : grows s1 s2 -> grows s2 s3 -> grows s1 s3.
Proof. intros A B y a H. apply B, A, H. Qed.
Lemma covered_grows x b i ka s s' : covered x b i ka s -> grows s s' -> covered x b i ka s'.
Proof. intros A B P N y Y. apply B. exact (A P N y Y). Qed.
Lemma plan_argument_covers x b i ka st st' : plan_argument x b i st ka = Ok st' -> grows st st' /\ covered x b i ka st'.
Proof.
  destruct st as [p free], ka as [k a]. unfold plan_argument, covered. cbn [fst snd]. destruct (prefix "0x" a) eqn:P; cbn [andb].
  2:{ intros E. injection E as <-. split; [intros y c H; exact H|discriminate]. }
  destruct (String.eqb_spec (li_op i) "LiteralAssignment") as [O|O]; cbn [negb]. { intros E. injection E as <-. split; [intros y c H; exact H|contradiction]. }
  destruct (if String.eqb (li_op i) "PhiFunction" then of_option (nth_error (cb_entries b) k) else Ok x) as [y|] eqn:Y; cbn [bind]; [|discriminate].
  assert (T : forall z, (if String.eqb (li_op i) "PhiFunction" then nth_error (cb_entries b) k = Some z else x = z) -> z = y).
  { intros z. destruct (String.eqb (li_op i) "PhiFunction"); [destruct (nth_error (cb_entries b) k); cbn in Y; congruence|congruence]. }
  destruct (lookup a (names_of p y)) eqn:L; intros E; injection E as <-.
  - split; [intros z c H; exact H|]. intros _ _ z Z. rewrite (T z Z). cbn [fst]. congruence.
  - cbn [fst]. split.
    + intros z c H. cbn [fst] in *. rewrite names_of_set. destruct (String.eqb_spec y z) as [<-|]; [|exact H]. rewrite UnifyProps.lookup_dict_set. destruct (String.eqb a c); [discriminate|exact H].
    + intros _ _ z Z. rewrite (T z Z), names_of_set, String.eqb_refl, UnifyProps.lookup_dict_set, String.eqb_refl. discriminate.
Qed.
Lemma plan_blocks_cover g free st : plan_blocks g free = Ok st -> forall x b i k a, In (x, b) (cl_blocks g) -> In i (cb_instrs b) -> nth_error (li_ins i) k = Some a -> covered x b i (k, a) st.
Proof.
  intros E x b i k a Ib Ii N.
  assert (Ik : In (k, a) (combine (seq 0 (length (li_ins i))) (li_ins i))).
  { clear -N. assert (G : forall (l : list string) n k a, nth_error l k = Some a -> In (n + k, a) (combine (seq n (length l)) l)).
    { induction l as [|c l IH]; intros n [|j] d; cbn; try discriminate; intros Q; [injection Q as ->; left; f_equal; lia|right]. replace (n + S j) with (S n + j) by lia. apply IH, Q. }
    exact (G _ 0 _ _ N). }
  refine (proj2 (for_each_all (fun st xb => for_each (plan_instruction (fst xb) (snd xb)) (cb_instrs (snd xb)) st) grows (fun xb st => forall i ka, In i (cb_instrs (snd xb)) -> In ka (combine (seq 0 (length (li_ins i))) (li_ins i)) -> covered (fst xb) (snd xb) i ka st) _ grows_trans _ _ _ _ _ E) (x, b) Ib i (k, a) Ii Ik).
  - intros s y c H; exact H.
  - intros xb s s' H G j ka J K. exact (covered_grows _ _ _ _ _ _ (H j ka J K) G).
  - intros xb s s' F. destruct (for_each_all (plan_instruction (fst xb) (snd xb)) grows (fun j st => forall ka, In ka (combine (seq 0 (length (li_ins j))) (li_ins j)) -> covered (fst xb) (snd xb) j ka st)) with (l := cb_instrs (snd xb)) (s := s) (s' := s') as (G & H); auto.
    + intros s0 y c H; exact H.
    + exact grows_trans.
    + intros j s1 s2 H G ka K. exact (covered_grows _ _ _ _ _ _ (H ka K) G).
    + intros j s1 s2 F1. refine (for_each_all (plan_argument (fst xb) (snd xb) j) grows (covered (fst xb) (snd xb) j) _ grows_trans _ _ _ _ _ F1); [intros s0 y c H; exact H|intros ka u u' H G; exact (covered_grows _ _ _ _ _ _ H G)|intros ka u u'; apply plan_argument_covers].
Qed.
Lemma name_no_constant free l a : names_ok free l -> (prefix "0x" a = true -> lookup a l <> None) -> prefix "0x" (constant_name l a) = false.
Proof.
  intros N H. unfold constant_name. destruct (lookup a l) as [v|] eqn:L; [|destruct (prefix "0x" a); [exfalso; apply H; reflexivity|reflexivity]].
  apply UtilProps.lookup_In in L. destruct (no_in _ _ N _ _ L) as (_ & n & _ & ->). reflexivity.
Qed.

(** Names are not used twice. *)
Definition once (st : plan * nat) : Prop := forall y z a a' v, In (a, v) (names_of (fst st) y) -> In (a', v) (names_of (fst st) z) -> y = z /\ a = a'.
Lemma plan_argument_once x b i ka st st' : plan_ok st /\ once st -> plan_argument x b i st ka = Ok st' -> plan_ok st' /\ once st'.
Proof.
  intros (Hk & H) E. split; [exact (proj1 (plan_argument_ok _ _ _ _ _ _ Hk E))|]. destruct st as [p free], ka as [k a]. unfold plan_argument in E. destruct (prefix "0x" a && negb _); [|injection E as <-; exact H].
  destruct (if String.eqb (li_op i) "PhiFunction" then of_option (nth_error (cb_entries b) k) else Ok x) as [y|]; cbn [bind] in E; [|discriminate]. destruct (lookup a (names_of p y)) eqn:L; injection E as <-; [exact H|].
  assert (T : forall z c v, In (c, v) (names_of (dict_set y (dict_set a ("c" ++ str_nat free)%string (names_of p y)) p) z) -> In (c, v) (names_of p z) \/ (z = y /\ c = a /\ v = ("c" ++ str_nat free)%string)).
  { intros z c v. rewrite names_of_set. destruct (String.eqb_spec y z) as [<-|]; [|auto]. rewrite (dict_set_end _ _ _ L). intros I. apply in_app_iff in I as [I|[Q|[]]]; [auto|]. injection Q as <- <-. auto. }
  assert (U : forall z c, ~ In (c, ("c" ++ str_nat free)%string) (names_of p z)). { intros z c I. destruct (no_in _ _ (Hk z) _ _ I) as (_ & n & Ln & Q). cbn [snd] in Ln. injection Q as Q. apply str_nat_inj in Q. lia. }
  intros z z' c c' v I I'. cbn [fst] in *. destruct (T _ _ _ I) as [J|(-> & -> & ->)], (T _ _ _ I') as [J'|(-> & -> & Q)]; [exact (H _ _ _ _ _ J J')|subst v; destruct (U _ _ J)|destruct (U _ _ J')|auto].
Qed.
Lemma plan_blocks_once g free st : plan_blocks g free = Ok st -> plan_ok st /\ once st.
Proof.
  refine (for_each_inv _ (fun st => plan_ok st /\ once st) _ _ _ _ _); [|split; [intros y; cbn; split; [intros a v []|constructor]|intros y z a a' v []]]. intros xb s s' H. refine (for_each_inv _ (fun st => plan_ok st /\ once st) _ _ _ _ H). intros i s1 s2 H1. refine (for_each_inv _ (fun st => plan_ok st /\ once st) _ _ _ _ H1). intros ka s3 s4 H3 E. exact (plan_argument_once _ _ _ _ _ _ H3 E).
Qed.
