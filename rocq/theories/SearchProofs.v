(** Proofs about the search: the stack it keeps is the stack its operations produce. *)
From Verif Require Import Base Lexical SymExecModel AsmModel FootprintSpec.
From Verif Require LexicalProofs CheckerProofs SpecBuild UtilModel PermutProps GreedyTailProofs.
From Verif Require Import PermutModel SearchModel SearchSpec.
Open Scope string_scope. Open Scope list_scope. Open Scope Z_scope.

Lemma well_formedb_ok ui : well_formedb ui = true -> well_formed ui.
Proof.
  unfold well_formedb. rewrite !andb_true_iff. intros (((A & B) & C) & D). rewrite forallb_forall in D.
  assert (Q : forall i, In i ui -> is_stack_op (i_id i) = false /\ (negb (i_comm i) || (length (i_inpt i) =? 2)%nat = true)
    /\ (i_disasm i <> "SWAP1" /\ i_disasm i <> "DUP1") /\ forall x, In x (i_inpt i ++ i_outpt i) -> plain x /\ is_write x = false).
  { intros i Hi. specialize (D i Hi). rewrite !andb_true_iff, forallb_forall in D. destruct D as ((((D1 & D2) & D4) & D5) & D3).
    split; [apply negb_true_iff; exact D1|]. split; [exact D2|].
    split; [apply negb_true_iff, String.eqb_neq in D4, D5; auto|]. intros x Hx. specialize (D3 x Hx).
    rewrite andb_true_iff, negb_true_iff in D3. destruct D3. split; [apply plainb_ok; auto|auto]. }
  constructor.
  - apply (CheckerProofs.ids_unique_NoDup ui []) in A. tauto.
  - apply (CheckerProofs.vars_unique_NoDup ui []) in B. tauto.
  - exact C.
  - intros i Hi. apply (Q i Hi).
  - intros i Hi E. destruct (Q i Hi) as (_ & H & _). rewrite E in H. apply Nat.eqb_eq. exact H.
  - intros i Hi. apply (Q i Hi).
  - intros i x Hi Hx. apply (Q i Hi); auto.
Qed.

(** ** One emitted operation *)
Definition all_plain (s : list string) : Prop := forall x, In x s -> plain x.
(** The validator accepts the operations and obtains [s']; names remain plain. *)
Definition runs (ui : list instr) (ops : list op) (s s' : list string) : Prop :=
  run_symbolic (map snd ops) ui s = Ok s' /\ (all_plain s -> all_plain s') /\ GreedyTailProofs.names_match ops.
Definition named (n id : string) : Prop := (n = "SWAP1" -> id = "SWAP1") /\ (n = "DUP1" -> id = "DUP1").
Lemma named_same n : named n n.
Proof. split; auto. Qed.
Section Runs.
Context (ui : list instr).
Lemma runs_nil s : runs ui [] s s.
Proof. split; [reflexivity|]. split; [auto|]. intros x []. Qed.
Lemma runs_app a b s s1 s2 : runs ui a s s1 -> runs ui b s1 s2 -> runs ui (a ++ b) s s2.
Proof.
  unfold runs, run_symbolic. intros (A & A' & A'') (B & B' & B''). split; [|split; [auto|]].
  2: { intros x Hx. apply in_app_iff in Hx as [Hx|Hx]; auto. }
  rewrite map_app, CheckerProofs.for_each_app, A. exact B.
Qed.
Lemma runs_named n id s s' : named n id -> (all_plain s -> all_plain s') -> execute_instr_id id s ui = Ok s' -> runs ui [(n, id)] s s'.
Proof.
  intros N Q H. split; [|split; [exact Q|]]; [unfold run_symbolic; cbn; rewrite H; reflexivity|]. intros x [<-|[]]. exact N.
Qed.
Lemma runs_one id s s' : (all_plain s -> all_plain s') -> execute_instr_id id s ui = Ok s' -> runs ui [same id] s s'.
Proof. apply runs_named, named_same. Qed.
Lemma runs_pop x s : runs ui [same "POP"] (x :: s) s.
Proof. apply runs_one; [|reflexivity]. intros Q y Hy. apply Q. right. exact Hy. Qed.

Lemma exec_swap_at i s x mid y post : s = x :: mid ++ y :: post -> Z.of_nat (length mid) = i - 1 ->
  exec_swap i s = Ok (y :: mid ++ x :: post).
Proof.
  intros -> L. unfold exec_swap.
  replace ((0 <=? i) && (i <? Z.of_nat (length (x :: mid ++ y :: post)))) with true.
  2: { symmetry. apply andb_true_iff. split; [apply Z.leb_le; lia|]. apply Z.ltb_lt. cbn [length]. rewrite app_length. cbn [length]. lia. }
  cbn [py_assert bind]. destruct (Z.to_nat i) as [|k] eqn:K; [lia|].
  assert (k = length mid) by lia. subst k. cbn [nth_error]. rewrite PermutProps.nth_error_at. cbn [set_nth].
  rewrite PermutProps.set_nth_at. reflexivity.
Qed.
Lemma runs_swap i s s' : swap_top s i = Ok s' -> 1 <= i -> runs ui [same (swap_name i)] s s'.
Proof.
  intros E Hi. destruct (PermutProps.swap_top_spec _ _ _ E Hi) as (x & mid & y & post & -> & L & ->).
  apply runs_one. { intros Q z Hz. apply Q. cbn in *. rewrite ?in_app_iff in *. cbn in *. tauto. }
  unfold execute_instr_id, swap_name.
  change (String.eqb ("SWAP" ++ str_Z i) "POP") with false. rewrite (LexicalProofs.startswith_contains "SWAP" _ (LexicalProofs.startswith_app "SWAP" (str_Z i))). cbv iota.
  change (sdrop 4 ("SWAP" ++ str_Z i)) with (str_Z i). rewrite PermutProps.py_int_str by lia. cbn [of_option bind].
  apply exec_swap_at; auto.
Qed.
Lemma runs_dup o s idx : index_of o s = Some idx -> runs ui [same (dup_id (idx + 1))] s (o :: s).
Proof.
  intros E. apply index_of_nth in E. apply runs_one.
  { intros Q x [<-|Hx]; [|auto]. apply Q. eapply nth_error_In; exact E. }
  unfold execute_instr_id, dup_id.
  change (String.eqb ("DUP" ++ str_nat (idx + 1)) "POP") with false.
  assert (W : contains "SWAP" ("DUP" ++ str_nat (idx + 1)) = false).
  { destruct (contains "SWAP" _) eqn:C; [|reflexivity]. exfalso.
    pose proof (py_int_str_nat (idx + 1)) as Q. apply LexicalProofs.py_int_no_P in Q. apply LexicalProofs.contains_swap_P in C.
    exact (Q C). }
  rewrite W. rewrite (LexicalProofs.startswith_contains "DUP" _ (LexicalProofs.startswith_app "DUP" (str_nat (idx + 1)))). cbv iota.
  change (sdrop 3 ("DUP" ++ str_nat (idx + 1))) with (str_nat (idx + 1)). rewrite py_int_str_nat. cbn [of_option bind].
  replace (Z.of_nat (idx + 1) - 1) with (Z.of_nat idx) by lia. unfold exec_dup.
  assert (L : (idx < length s)%nat) by (apply nth_error_Some; congruence).
  replace ((0 <=? Z.of_nat idx) && (Z.of_nat idx <? Z.of_nat (length s))) with true.
  2: { symmetry. apply andb_true_iff. split; [apply Z.leb_le; lia|apply Z.ltb_lt; lia]. }
  cbn [py_assert bind]. rewrite Nat2Z.id, E. reflexivity.
Qed.

Lemma runs_vget o s : plain o -> runs ui [same (vget_id o)] s (o :: s).
Proof.
  intros Po. apply runs_one. { intros Q x [<-|Hx]; auto. } destruct Po as (A & _ & _ & B & C & _). unfold execute_instr_id. rewrite A, B, C.
  change (String.eqb (vget_id o) "POP") with false. reflexivity.
Qed.
Lemma runs_vset o s : plain o -> runs ui [same (vset_id o)] (o :: s) s.
Proof.
  intros (_ & A & B & _ & _ & C & D). apply runs_one. { intros Q x Hx. apply Q. right. exact Hx. } unfold execute_instr_id. rewrite A, B, C, D.
  change (String.eqb (vset_id o) "POP") with false. cbn. rewrite String.eqb_refl. reflexivity.
Qed.

Lemma consume_app xs s : consume xs (xs ++ s) = Ok s.
Proof. induction xs as [|x xs IH]; cbn; [reflexivity|]. rewrite String.eqb_refl. exact IH. Qed.
Lemma runs_user n i xs s : well_formed ui -> named n (i_id i) -> In i ui -> xs = i_inpt i \/ (i_comm i = true /\ xs = rev (i_inpt i)) ->
  runs ui [(n, i_id i)] (xs ++ s) (i_outpt i ++ s).
Proof.
  intros W Nm Hi Hx. apply runs_named; [exact Nm| |].
  { intros Q y Hy. apply in_app_iff in Hy as [Hy|Hy]; [|apply Q, in_app_iff; auto]. apply (wf_vars _ W i y Hi). apply in_app_iff. auto. }
  pose proof (wf_names _ W i Hi) as N. unfold is_stack_op in N. rewrite !orb_false_iff in N.
  destruct N as ((((N1 & N2) & N3) & N4) & N5). unfold execute_instr_id. rewrite N1, N2, N3.
  destruct (vget_arg (i_id i)); [discriminate|]. destruct (vset_arg (i_id i)); [discriminate|].
  rewrite CheckerProofs.find_instr_unique; [|apply (wf_ids _ W)|exact Hi]. cbn [of_option bind]. unfold exec_user.
  destruct (i_comm i) eqn:C.
  - pose proof (wf_comm _ W i Hi C) as L. destruct (i_inpt i) as [|a [|b [|]]]; try discriminate L.
    destruct Hx as [-> | [_ ->]]; cbn; rewrite !String.eqb_refl; cbn; [reflexivity|]. rewrite orb_true_r. reflexivity.
  - destruct Hx as [-> | [Q _]]; [|discriminate]. rewrite consume_app. reflexivity.
Qed.
End Runs.

(** The permutation phase, run by the validator. *)
Lemma act_runs ui R s r a s' r' : PermutProps.act R (s, r) a (s', r') -> (forall x, In x (s ++ r) -> plain x) ->
  runs ui [same a] s s' /\ (forall x, In x (s' ++ r') -> plain x).
Proof.
  intros H Q. inversion H; subst.
  - split; [apply runs_pop|]. intros y Hy. apply Q. right. exact Hy.
  - split; [apply runs_pop|]. intros y Hy. apply Q. cbn. rewrite !in_app_iff in Hy. cbn in Hy. rewrite in_app_iff.
    destruct Hy as [|[|[->|[]]]]; auto.
  - split; [apply runs_vset; apply Q; left; reflexivity|]. intros y Hy. apply Q. rewrite !in_app_iff in Hy. cbn in Hy. cbn. rewrite in_app_iff.
    destruct Hy as [|[|[->|[]]]]; auto.
  - match goal with E : remove_first _ _ = Some _ |- _ => apply PermutProps.remove_first_in in E as [I J] end. split; [apply runs_vget; apply Q; apply in_app_iff; auto|].
    intros y Hy. apply Q. cbn in Hy. rewrite in_app_iff in *. destruct Hy as [<-|[|]]; auto.
  - split.
    + apply runs_one. { intros Z z Hz. apply Z. cbn in *. rewrite ?in_app_iff in *. cbn in *. rewrite ?in_app_iff in *. cbn in *. tauto. }
      unfold execute_instr_id, swap_name.
      change (String.eqb ("SWAP" ++ str_Z i) "POP") with false. rewrite (LexicalProofs.startswith_contains "SWAP" _ (LexicalProofs.startswith_app "SWAP" (str_Z i))). cbv iota.
      change (sdrop 4 ("SWAP" ++ str_Z i)) with (str_Z i). rewrite PermutProps.py_int_str by lia. cbn [of_option bind].
      apply exec_swap_at; auto.
    + intros z Hz. apply Q. cbn in *. rewrite ?in_app_iff in *. cbn in *. rewrite ?in_app_iff in *. cbn in *. tauto.
Qed.
Lemma acts_runs ui R ids p q : PermutProps.acts R p ids q -> (forall x, In x (fst p ++ snd p) -> plain x) ->
  runs ui (map same ids) (fst p) (fst q).
Proof.
  induction 1 as [|s a s' l s'' H _ IH]; intros Q; [apply runs_nil|]. destruct s as [s r], s' as [s' r'].
  destruct (act_runs ui _ _ _ _ _ _ H Q) as [A B]. exact (runs_app ui [same a] (map same l) s s' (fst s'') A (IH B)).
Qed.

(** ** The instructions during the search *)
Definition reversed (i : instr) : instr :=
  {| i_id := i_id i; i_disasm := i_disasm i; i_inpt := rev (i_inpt i); i_outpt := i_outpt i;
     i_comm := i_comm i; i_storage := i_storage i; i_value := i_value i |}.
Section Table.
Context (ui : list instr) (W : well_formed ui) (rank : string -> nat).
Hypothesis ranked : forall i j x, In i ui -> In j ui -> In x (i_inpt i) -> In x (i_outpt j) -> (rank (i_id j) < rank (i_id i))%nat.

(** An operation as it was, or with its inputs reversed: this may be so for
    commutative operations, and for those of the ranks in [B]. *)
Definition variant (B : nat -> Prop) (i j : instr) : Prop :=
  j = i \/ (j = reversed i /\ (i_comm i = true \/ B (rank (i_id i)))).
Definition table (B : nat -> Prop) (tbl : list instr) : Prop := Forall2 (variant B) ui tbl.
Definition clear (B : nat -> Prop) (o : string) : Prop :=
  forall i, In i ui -> In o (i_outpt i) \/ (is_write o = true /\ i_id i = o) -> forall r, (r <= rank (i_id i))%nat -> ~ B r.

Lemma variant_fields B i j : variant B i j -> i_id j = i_id i /\ i_outpt j = i_outpt i /\ i_comm j = i_comm i /\ i_disasm j = i_disasm i.
Proof. intros [-> | [-> _]]; auto. Qed.
Lemma table_In B tbl j : table B tbl -> In j tbl -> exists i, In i ui /\ variant B i j.
Proof.
  unfold table. clear. intros H. induction H as [|i j' l tbl V _ IH]; cbn; [tauto|]. intros [<-|Hj]; [eauto|].
  destruct (IH Hj) as (i' & Hi' & Vi). eauto.
Qed.
Lemma var_instr_some tbl o j : var_instr tbl o = Some j -> In j tbl /\ i_outpt j = [o].
Proof.
  unfold var_instr. intros E. apply find_some in E as [Hj E]. split; [apply in_rev; exact Hj|].
  destruct (i_outpt j) as [|x [|]]; try discriminate. apply String.eqb_eq in E. subst. reflexivity.
Qed.
Lemma opid_instr_some tbl o j : opid_instr tbl o = Some j -> In j tbl /\ i_id j = o.
Proof.
  unfold opid_instr. intros E. apply find_some in E as [Hj E]. split; [apply in_rev; exact Hj|]. apply String.eqb_eq. exact E.
Qed.
(** Outside [B] the inputs are the original ones, in some order if the operation is commutative. *)
Lemma variant_inputs B i j : variant B i j -> ~ B (rank (i_id i)) ->
  i_inpt j = i_inpt i \/ (i_comm i = true /\ i_inpt j = rev (i_inpt i)).
Proof. intros [-> | [-> [C|Q]]] N; auto. Qed.
Lemma variant_named B i j : In i ui -> variant B i j -> named (i_disasm j) (i_id i).
Proof. intros Hi V. destruct (variant_fields _ _ _ V) as (_ & _ & _ & F). rewrite F. destruct (wf_opcodes _ W i Hi). split; tauto. Qed.
Lemma variant_members B i j x : variant B i j -> In x (i_inpt j) -> In x (i_inpt i).
Proof. intros [-> | [-> _]]; auto. cbn. intros H. apply in_rev. exact H. Qed.

(** Operations that change neither the instructions nor the count of the top *)
Definition quiet (g g' : gstate) : Prop := g_tbl g' = g_tbl g /\ g_dup g' = g_dup g.
Lemma quiet_refl g : quiet g g. Proof. split; reflexivity. Qed.
Lemma quiet_trans a b c : quiet a b -> quiet b c -> quiet a c.
Proof. intros [A A'] [B B']. split; congruence. Qed.
Lemma quiet_need n g : quiet g (with_need n g). Proof. split; reflexivity. Qed.
Lemma quiet_settle o g : quiet g (settle o g).
Proof. unfold settle. destruct (mem o (g_todo g)); split; reflexivity. Qed.
Lemma quiet_use_one o g g' : use_one o g = Ok g' -> quiet g g'.
Proof.
  unfold use_one. destruct (need g o); [|discriminate]. intros E. apply bind_ok in E as (u & _ & E). injection E as <-. apply quiet_need.
Qed.
Lemma quiet_use_term o g g' : use_term o g = Ok g' -> quiet g g'.
Proof.
  unfold use_term. generalize (map fst (g_need g)). intros l.
  assert (G : forall g0, for_each (fun g' n => match need g' n with
    | Some k => if 0 <? k then do nn <- needed n o g; do _ <- py_assert (nn <=? k); Ok (with_need (UtilModel.dict_set n (k - nn) (g_need g')) g') else Ok g'
    | None => Raise OtherError end) l g0 = Ok g' -> quiet g0 g').
  { induction l as [|x l IH]; cbn; intros g0 E; [injection E as <-; apply quiet_refl|].
    apply bind_ok in E as (g1 & E1 & E). apply IH in E. eapply quiet_trans; [|exact E].
    destruct (need g0 x) as [k|]; [|discriminate]. destruct (0 <? k); [|injection E1 as <-; apply quiet_refl].
    apply bind_ok in E1 as (nn & _ & E1). apply bind_ok in E1 as (u & _ & E1). injection E1 as <-. apply quiet_need. }
  apply G.
Qed.
Lemma quiet_forget P x s g : quiet g (forget_extra P x s g).
Proof. unfold forget_extra. destruct (_ <? _); [apply quiet_need|apply quiet_refl]. Qed.

Lemma clean_loop_ok P solved : forall n i stack ops g ops' stack' g', clean_loop n i P stack solved ops g = Ok (ops', stack', g') ->
  quiet g g' /\ exists l, ops' = ops ++ l /\ runs ui l stack stack'.
Proof.
  induction n as [|n IH]; cbn [clean_loop]; intros i stack ops g ops' stack' g' E; [discriminate|].
  destruct (_ && _ && _).
  2: { injection E as <- <- <-. split; [apply quiet_refl|]. exists []. rewrite app_nil_r. split; [reflexivity|apply runs_nil]. }
  destruct (_ && _ && _ && _) eqn:C.
  2: { injection E as <- <- <-. split; [apply quiet_refl|]. exists []. rewrite app_nil_r. split; [reflexivity|apply runs_nil]. }
  rewrite !andb_true_iff, Nat.ltb_lt in C. destruct C as (((J & _) & _) & _).
  set (j := clean_from _ _ _ _ _ _) in *.
  apply bind_ok in E as (s1 & S & E). destruct s1 as [|opr s2]; [discriminate|].
  apply IH in E as (Qt & l & -> & R). split; [eapply quiet_trans; [apply quiet_need|exact Qt]|].
  exists ([same (swap_name (Z.of_nat j)); same "POP"] ++ l). split; [rewrite app_assoc; reflexivity|].
  eapply runs_app; [|exact R]. eapply (runs_app ui [_] [_]); [apply runs_swap; [exact S|lia]|apply runs_pop].
Qed.
Lemma clean_stack_ok P o stack solved g ops stack' g' : clean_stack P o stack solved g = Ok (ops, stack', g') ->
  quiet g g' /\ runs ui ops stack stack'.
Proof.
  unfold clean_stack. intros E. apply bind_ok in E as (far & _ & E). destruct (_ <=? _).
  - injection E as <- <- <-. split; [apply quiet_refl|apply runs_nil].
  - apply clean_loop_ok in E as (Q & l & -> & R). split; auto.
Qed.

(** ** One value *)
(** What happens when the value [o] is put on the top: the elements counted by
    [g_dup] stay where they are, below it. *)
Definition on_top (o : string) (stack : list string) (g : gstate) (stack' : list string) (g' : gstate) : Prop :=
  g_dup g' = g_dup g + 1 /\
  exists rest, stack' = o :: rest /\ firstn (Z.to_nat (g_dup g)) rest = firstn (Z.to_nat (g_dup g)) stack.
Definition held (stack : list string) (g : gstate) : Prop := 0 <= g_dup g <= len stack.

Lemma on_top_push o stack g g' : g_dup g' = g_dup g + 1 -> on_top o stack g (o :: stack) g'.
Proof. intros E. split; [exact E|]. exists stack. auto. Qed.

Lemma named_space a b id : named (a ++ " " ++ b)%string id.
Proof.
  assert (G : forall a c t, (a ++ String " " c)%string = t -> contains " " t = true).
  { clear. induction a as [|x a IH]; cbn [append]; intros c t <-.
    - cbn. destruct c; reflexivity.
    - cbn [contains]. rewrite (IH c _ eq_refl). apply orb_true_r. }
  split; intros E; apply G in E; discriminate.
Qed.
Lemma push_zeroary_ok o i j stack g ops stack' g' B : table B (g_tbl g) ->
  var_instr (g_tbl g) o = Some j -> i_inpt j = [] -> i = j ->
  push_zeroary o i stack g = Ok (ops, stack', g') ->
  runs ui ops stack stack' /\ g_tbl g' = g_tbl g /\ on_top o stack g stack' g'.
Proof.
  intros T V I -> E. apply var_instr_some in V as [Hj O].
  destruct (table_In _ _ _ T Hj) as (i0 & Hi & V). pose proof (variant_fields _ _ _ V) as (F1 & F2 & _).
  assert (N : forall n, named n (i_id i0) -> runs ui [(n, i_id j)] stack (o :: stack)).
  { intros n Nn. rewrite F1. assert (I0 : i_inpt i0 = []).
    { destruct V as [-> | [-> _]]; [exact I|]. cbn in I. apply (f_equal (@rev string)) in I. rewrite rev_involutive in I. exact I. }
    pose proof (runs_user ui n i0 [] stack W Nn Hi) as R. rewrite I0 in R. rewrite <- F2, O in R. exact (R (or_introl eq_refl)). }
  unfold push_zeroary in E. destruct (_ && _).
  - apply bind_ok in E as (nm & En & E). injection E as <- <- <-. split.
    { apply N. destruct (contains "tag" (i_disasm j)); [|injection En as <-; eapply variant_named; eauto].
      apply bind_ok in En as (v & _ & En). injection En as <-. apply named_space. } split; [reflexivity|]. apply on_top_push. reflexivity.
  - apply bind_ok in E as (g1 & E1 & E). injection E as <- <- <-. split; [apply N; eapply variant_named; eauto|].
    assert (Q : quiet (bump g) g1).
    { eapply quiet_trans; [apply quiet_settle|]. destruct (needs _ o); [eapply quiet_use_one; eauto|injection E1 as <-; apply quiet_refl]. }
    destruct Q as [Q1 Q2]. split; [exact Q1|]. apply on_top_push. exact Q2.
Qed.

Lemma app_same_length {A} (a b c d : list A) : a ++ b = c ++ d -> length a = length c -> a = c /\ b = d.
Proof.
  revert c. induction a as [|x a IH]; intros [|y c]; cbn; intros E L; try discriminate; [auto|].
  injection E as -> E. injection L as L. destruct (IH c E L) as [-> ->]. auto.
Qed.
Lemma swap_top_at t pre m rest s' : swap_top (t :: pre ++ m :: rest) (Z.of_nat (S (length pre))) = Ok s' -> s' = m :: pre ++ t :: rest.
Proof.
  intros E. destruct (PermutProps.swap_top_spec _ _ _ E ltac:(lia)) as (x & mid & y & post & Q & L & ->).
  injection Q as <- Q. apply app_same_length in Q as [<- Q]; [|lia]. injection Q as <- <-. reflexivity.
Qed.
Lemma last_any {A} (l : list A) x d d' : last (x :: l) d = last (x :: l) d'.
Proof. revert x. induction l as [|y l IH]; intros x; [reflexivity|]. exact (IH y). Qed.
Lemma rotate_ok : forall n pre t mid post ops ops' s', length mid = n ->
  rotate n (S (length pre)) (t :: pre ++ mid ++ post) ops = Ok (ops', s') ->
  exists l, ops' = ops ++ l /\ runs ui l (t :: pre ++ mid ++ post) s' /\ s' = last (t :: mid) t :: pre ++ removelast (t :: mid) ++ post.
Proof.
  induction n as [|n IH]; intros pre t mid post ops ops' s' L E.
  - destruct mid; [|discriminate]. cbn in E. injection E as <- <-. exists []. rewrite app_nil_r. cbn. auto using runs_nil.
  - destruct mid as [|m mid]; [discriminate|]. injection L as L. cbn [rotate] in E.
    change ((m :: mid) ++ post) with (m :: mid ++ post) in *.
    assert (X : nth_error (t :: pre ++ m :: mid ++ post) (S (length pre)) = Some m) by (cbn; apply PermutProps.nth_error_at).
    rewrite X in E. cbn [of_option bind nth_error] in E.
    assert (S1 : S (S (length pre)) = S (length (pre ++ [t]))) by (rewrite app_length; cbn; lia).
    assert (G : forall ops0, rotate n (S (S (length pre))) (m :: pre ++ t :: mid ++ post) ops0 = Ok (ops', s') ->
      exists l, ops' = ops0 ++ l /\ runs ui l (m :: pre ++ t :: mid ++ post) s' /\
        s' = last (t :: m :: mid) t :: pre ++ removelast (t :: m :: mid) ++ post).
    { intros ops0 E0. rewrite S1 in E0.
      replace (pre ++ t :: mid ++ post) with ((pre ++ [t]) ++ mid ++ post) in * by (rewrite <- app_assoc; reflexivity).
      destruct (IH (pre ++ [t]) m mid post ops0 ops' s' L E0) as (l & A & R & D). exists l. split; [exact A|]. split; [exact R|].
      rewrite D. change (removelast (t :: m :: mid)) with (t :: removelast (m :: mid)).
      rewrite <- app_assoc. cbn [app]. f_equal. change (last (t :: m :: mid) t) with (last (m :: mid) t).
      apply last_any. }
    destruct (String.eqb_spec t m) as [-> | N].
    + apply G in E. exact E.
    + apply bind_ok in E as (s1 & SW & E). pose proof (swap_top_at _ _ _ _ _ SW) as Q. subst s1.
      apply G in E as (l & -> & R & D). exists ([same (swap_name (Z.of_nat (S (length pre))))] ++ l).
      split; [rewrite <- app_assoc; reflexivity|]. split; [|exact D].
      eapply runs_app; [apply runs_swap; [exact SW|lia]|exact R].
Qed.
Lemma rotate_top pos stack o ops s' : rotate pos 1 stack [] = Ok (ops, s') -> nth_error stack pos = Some o ->
  runs ui ops stack s' /\ s' = o :: firstn pos stack ++ skipn (S pos) stack.
Proof.
  intros E N. destruct stack as [|t st]; [destruct pos; discriminate|].
  assert (L : (pos <= length st)%nat). { assert (pos < length (t :: st))%nat by (apply nth_error_Some; congruence). cbn in *. lia. }
  rewrite <- (firstn_skipn pos st) in E at 1.
  destruct (rotate_ok pos [] t (firstn pos st) (skipn pos st) [] ops s') as (l & -> & R & ->); [rewrite firstn_length; lia|exact E|].
  cbn [app] in R. rewrite firstn_skipn in R. split; [exact R|]. cbn [app skipn].
  assert (G : forall pos t st, nth_error (t :: st) pos = Some o -> last (t :: firstn pos st) t = o /\ removelast (t :: firstn pos st) = firstn pos (t :: st)).
  { clear. induction pos as [|p IH]; intros t st N; [injection N as ->; auto|].
    destruct st as [|a st]; [destruct p; discriminate|]. cbn [nth_error] in N. destruct (IH a st N) as [A B].
    cbn [firstn]. split.
    - rewrite <- A. change (last (t :: a :: firstn p st) t) with (last (a :: firstn p st) t).
      apply last_any.
    - change (removelast (t :: a :: firstn p st)) with (t :: removelast (a :: firstn p st)). rewrite B. reflexivity. }
  destruct (G pos t st N) as [-> ->]. reflexivity.
Qed.

Lemma slice_tail (l : list string) d : 0 <= d <= len l -> slice l d (len l) = skipn (Z.to_nat d) l.
Proof.
  intros H. unfold slice, bound. unfold len in *.
  replace (Z.of_nat (length l) <? 0) with false by (symmetry; apply Z.ltb_ge; lia).
  replace (d <? 0) with false by (symmetry; apply Z.ltb_ge; lia).
  rewrite Z.min_id, Z.min_l by lia. apply firstn_all2. rewrite skipn_length. lia.
Qed.
Lemma nth_error_skip {A} (l : list A) d k : nth_error (skipn d l) k = nth_error l (d + k).
Proof. revert l. induction d as [|d IH]; intros [|x l]; cbn; auto. destruct k; reflexivity. Qed.

Lemma take_ok P o stack solved idx g ops stack' g' : held stack g -> index_of o stack = Some idx ->
  take_from_stack P o stack solved idx g = Ok (Some (ops, stack', g')) ->
  runs ui ops stack stack' /\ g_tbl g' = g_tbl g /\ on_top o stack g stack' g'.
Proof.
  intros H I E. unfold take_from_stack in E. destruct (_ && _); [|discriminate].
  apply bind_ok in E as (pos & Epos & E).
  assert (Q : 0 <= pos /\ g_dup g <= pos /\ nth_error stack (Z.to_nat pos) = Some o).
  { destruct (Z.of_nat idx <? g_dup g) eqn:C.
    - apply bind_ok in Epos as (k & K & Epos). injection Epos as <-. apply of_option_ok in K.
      rewrite slice_tail in K by exact H. apply index_of_nth in K. rewrite nth_error_skip in K. destruct H.
      split; [lia|]. split; [lia|]. rewrite <- K. f_equal. lia.
    - injection Epos as <-. apply Z.ltb_ge in C. split; [lia|]. split; [exact C|]. rewrite Nat2Z.id. apply index_of_nth. exact I. }
  destruct Q as (Q0 & Qd & Qn). destruct (_ && _); [|discriminate]. destruct (g_dup g =? 0) eqn:D.
  - apply Z.eqb_eq in D. destruct (pos =? 0) eqn:Z0.
    + injection E as <- <- <-. apply Z.eqb_eq in Z0. subst pos. split; [apply runs_nil|]. split; [reflexivity|].
      split; [reflexivity|]. destruct stack as [|x st]; [discriminate|]. injection Qn as ->. exists st. rewrite D. auto.
    + apply Z.eqb_neq in Z0. apply bind_ok in E as (x & X & E). apply bind_ok in E as (u & U & E). apply bind_ok in E as (s1 & SW & E).
      injection E as <- <- <-. split; [apply runs_swap; [exact SW|lia]|]. split; [reflexivity|]. split; [reflexivity|].
      destruct (PermutProps.swap_top_spec _ _ _ SW ltac:(lia)) as (t & mid & y & post & -> & L & ->).
      replace (Z.to_nat pos) with (S (length mid)) in Qn by lia. cbn in Qn. rewrite PermutProps.nth_error_at in Qn. injection Qn as ->.
      exists (mid ++ t :: post). rewrite D. auto.
  - destruct (solved_below _ _); [discriminate|]. apply bind_ok in E as (u & _ & E). destruct (pos <=? _); [|discriminate].
    apply bind_ok in E as ([ro rs] & R & E). apply bind_ok in E as (u' & _ & E). injection E as <- <- <-.
    destruct (rotate_top _ _ _ _ _ R Qn) as [R1 ->]. split; [exact R1|]. split; [reflexivity|]. split; [reflexivity|].
    eexists. split; [reflexivity|]. destruct H as [H0 H1].
    assert (Hp : (Z.to_nat pos < length stack)%nat) by (apply nth_error_Some; congruence).
    rewrite firstn_app, firstn_firstn, Nat.min_l by lia. rewrite firstn_length, Nat.min_l by lia.
    replace (Z.to_nat (g_dup g) - Z.to_nat pos)%nat with 0%nat by lia. cbn. apply app_nil_r.
Qed.
Lemma from_stack_ok P o stack solved idx g ops stack' g' : held stack g -> index_of o stack = Some idx ->
  from_stack P o stack solved idx g = Ok (ops, stack', g') ->
  runs ui ops stack stack' /\ g_tbl g' = g_tbl g /\ on_top o stack g stack' g'.
Proof.
  intros H I E. unfold from_stack in E. apply bind_ok in E as ([r|] & T & E).
  - injection E as ->. eapply take_ok; eauto.
  - apply bind_ok in E as (g1 & G & E). injection E as <- <- <-.
    assert (Q : quiet g g1) by (destruct (needs g o); [eapply quiet_use_one|eapply quiet_use_term]; exact G).
    destruct Q as [Q1 Q2]. split; [apply runs_dup; exact I|]. split; [exact Q1|]. apply on_top_push. cbn. rewrite Q2. reflexivity.
Qed.

(** What is shown of the function for one value. *)
Definition one_ok (B : nat -> Prop) (one : string -> list string -> gstate -> result outcome) : Prop :=
  forall o stack g ops stack' g', one o stack g = Ok (ops, stack', g') ->
  table B (g_tbl g) -> clear B o -> plain o -> held stack g ->
  runs ui ops stack stack' /\ g_tbl g' = g_tbl g /\ (is_write o = false -> on_top o stack g stack' g').

Lemma compute_all_from B one (OK : one_ok B one) : forall os ops0 stack g ops stack' g',
  for_each (fun acc o => let '(ops, stack, g) := acc in do out <- one o stack g;
    let '(nops, stack', g') := out in Ok (ops ++ nops, stack', g')) os (ops0, stack, g) = Ok (ops, stack', g') ->
  table B (g_tbl g) -> held stack g -> (forall o, In o os -> clear B o /\ plain o /\ is_write o = false) ->
  exists l rest, ops = ops0 ++ l /\ runs ui l stack stack' /\ g_tbl g' = g_tbl g /\ g_dup g' = g_dup g + len os /\
    stack' = rev os ++ rest /\ firstn (Z.to_nat (g_dup g)) rest = firstn (Z.to_nat (g_dup g)) stack.
Proof.
  induction os as [|o os IH]; intros ops0 stack g ops stack' g' E T H C; cbn [for_each] in E.
  - injection E as <- <- <-. exists [], stack. rewrite app_nil_r. split; [reflexivity|]. split; [apply runs_nil|].
    split; [reflexivity|]. split; [unfold len; cbn; lia|]. auto.
  - apply bind_ok in E as ([[o1 s1] g1] & E1 & E). apply bind_ok in E1 as ([[n1 s1'] g1'] & E1 & E2). injection E2 as <- <- <-.
    destruct (C o (or_introl eq_refl)) as (C1 & C2 & C3).
    destruct (OK _ _ _ _ _ _ E1 T C1 C2 H) as (R & Tg & O). destruct (O C3) as (D & r1 & -> & F). clear O.
    assert (H1 : held (o :: r1) g1').
    { destruct H as [Ha Hb]. unfold held. rewrite D. assert (L := f_equal (@length string) F). rewrite !firstn_length in L. unfold len in *. cbn [length]. lia. }
    apply IH in E as (l & rest & -> & R2 & T2 & D2 & -> & F2); [|rewrite Tg; exact T|exact H1|intros x Hx; apply C; right; exact Hx].
    rewrite D in D2, F2. destruct H as [Ha Hb]. replace (Z.to_nat (g_dup g + 1)) with (S (Z.to_nat (g_dup g))) in F2 by lia.
    assert (L2 := f_equal (@length string) F2). rewrite !firstn_length in L2. cbn [length] in L2.
    destruct rest as [|y rest]; [cbn in F2; discriminate|]. cbn [firstn] in F2. injection F2 as -> F2.
    exists (n1 ++ l), rest. split; [rewrite app_assoc; reflexivity|]. split; [eapply runs_app; eauto|]. split; [congruence|].
    split; [rewrite D2; unfold len; cbn [length]; lia|]. split; [cbn [rev]; rewrite <- app_assoc; reflexivity|].
    rewrite F2. exact F.
Qed.
Lemma compute_all_ok B one (OK : one_ok B one) os stack g ops stack' g' : compute_all one os stack g = Ok (ops, stack', g') ->
  table B (g_tbl g) -> held stack g -> (forall o, In o os -> clear B o /\ plain o /\ is_write o = false) ->
  exists rest, runs ui ops stack stack' /\ g_tbl g' = g_tbl g /\ g_dup g' = g_dup g + len os /\
    stack' = rev os ++ rest /\ firstn (Z.to_nat (g_dup g)) rest = firstn (Z.to_nat (g_dup g)) stack.
Proof.
  intros E T H C. unfold compute_all in E. destruct (compute_all_from B one OK os [] stack g ops stack' g' E T H C) as (l & rest & -> & Q).
  exists rest. exact Q.
Qed.

Lemma check_top_ok xs : forall s u, check_top xs s = Ok u -> s = xs ++ skipn (length xs) s.
Proof.
  induction xs as [|x xs IH]; cbn; intros s u E; [reflexivity|]. destruct s as [|y s]; [discriminate|].
  apply bind_ok in E as (v & A & E). apply py_assert_ok, String.eqb_eq in A. subst y. f_equal. eapply IH; eauto.
Qed.
Lemma len_rev l : len (rev l) = len l.
Proof. unfold len. rewrite rev_length. reflexivity. Qed.

(** The inputs of an operation can be computed when the operation can be. *)
Lemma inputs_clear B i x : In i ui -> (forall r, (r <= rank (i_id i))%nat -> ~ B r) -> In x (i_inpt i) ->
  clear B x /\ plain x /\ is_write x = false.
Proof.
  intros Hi C Hx. destruct (wf_vars _ W i x Hi ltac:(apply in_app_iff; auto)) as [Px Wx]. split; [|auto].
  intros j Hj [O|[O _]] r Hr; [|congruence].
  apply C. pose proof (ranked i j x Hi Hj Hx O). lia.
Qed.
(** Either order, for a commutative operation. *)
Lemma flip_comm i j xs : i_comm i = true -> xs = i_inpt i \/ (i_comm i = true /\ xs = rev (i_inpt i)) ->
  j = rev xs -> j = i_inpt i \/ (i_comm i = true /\ j = rev (i_inpt i)).
Proof. intros C [-> | [_ ->]] ->; [auto|]. rewrite rev_involutive. auto. Qed.
Lemma skipn_app_exact {A} (a b : list A) : skipn (length a) (a ++ b) = b.
Proof. rewrite skipn_app, skipn_all, Nat.sub_diag. reflexivity. Qed.

Lemma compute_term_ok B one (OK : one_ok B one) P solved : one_ok B (compute_term one P solved).
Proof.
  intros o stack g ops stack' g' E T C Po H. unfold compute_term in E. apply bind_ok in E as (u & _ & E).
  apply bind_ok in E as (j & J & E). apply of_option_ok in J.
  assert (Q : In j (g_tbl g) /\ ((is_write o = true /\ i_id j = o) \/ (is_write o = false /\ i_outpt j = [o]))).
  { destruct (is_write o); [apply opid_instr_some in J|apply var_instr_some in J]; tauto. }
  destruct Q as [Hj Qj]. destruct (table_In _ _ _ T Hj) as (i & Hi & V). destruct (variant_fields _ _ _ V) as (F1 & F2 & F3 & F4).
  assert (NB : forall r, (r <= rank (i_id i))%nat -> ~ B r).
  { apply (C i Hi). destruct Qj as [[Q1 Q2]|[Q1 Q2]]; [right; split; congruence|left]. rewrite <- F2, Q2. left. reflexivity. }
  pose proof (variant_inputs _ _ _ V (NB _ (le_n _))) as VI.
  assert (CM : forall j', var_instr (g_tbl g) o = Some j' -> i_comm j' = true -> i_comm i = true /\ is_write o = false).
  { intros j' V' C'. destruct Qj as [[Q1 Q2]|[Q1 Q2]].
    - exfalso. apply var_instr_some in V' as [Hj' O']. destruct (table_In _ _ _ T Hj') as (i' & Hi' & V'').
      destruct (variant_fields _ _ _ V'') as (_ & F2' & _). destruct (wf_vars _ W i' o Hi') as [_ X]; [|congruence].
      rewrite <- F2', O'. apply in_app_iff. right. left. reflexivity.
    - rewrite Q1 in J. rewrite J in V'. injection V' as <-. split; [congruence|exact Q1]. }
  assert (IN : forall x, In x (i_inpt j) -> clear B x /\ plain x /\ is_write x = false).
  { intros x Hx. apply (inputs_clear B i x Hi NB). eapply variant_members; eauto. }
  destruct (both_on_top P o j stack solved g) eqn:BT.
  { unfold both_on_top in BT. destruct (i_inpt j) as [|a [|b [|]]] eqn:Ij; try discriminate.
    destruct stack as [|x [|y rest]]; try discriminate. injection E as <- <- <-.
    rewrite !andb_true_iff, orb_true_iff, !andb_true_iff in BT. destruct BT as (((((D & _) & _) & M) & _) & _). apply Z.eqb_eq in D.
    assert (X : [x; y] = i_inpt i \/ (i_comm i = true /\ [x; y] = rev (i_inpt i))).
    { destruct M as [[A1 A2]|[[A0 A1] A2]]; apply String.eqb_eq in A1, A2; subst; [exact VI|].
      destruct (var_instr (g_tbl g) o) as [j'|] eqn:V'; [|discriminate]. destruct (CM _ eq_refl A0) as [C' _].
      eapply flip_comm; eauto. }
    split. { rewrite F1, F2. exact (runs_user ui (i_disasm j) i [x; y] rest W (variant_named _ _ _ Hi V) Hi X). }
    assert (Qq : quiet g (forget_extra P y (x :: y :: rest) (forget_extra P x (x :: y :: rest) g))).
    { eapply quiet_trans; [apply quiet_forget|apply quiet_forget]. }
    destruct Qq as [Q1 Q2]. split; [exact Q1|]. intros NW. destruct Qj as [[Q3 _]|[_ Q3]]; [congruence|].
    split; [cbn; rewrite Q2; reflexivity|]. exists rest. rewrite Q3, D. auto. }
  clear BT. destruct (first_on_top P o j stack solved g) eqn:FT.
  { unfold first_on_top in FT. destruct (i_inpt j) as [|a [|b [|]]] eqn:Ij; try discriminate.
    destruct stack as [|x rest]; try discriminate. apply bind_ok in E as ([[o1 s1] g1] & E1 & E). injection E as <- <- <-.
    rewrite !andb_true_iff in FT. destruct FT as ((((D & _) & A0) & A1) & _). apply Z.eqb_eq in D. apply String.eqb_eq in A1. subst x.
    destruct (var_instr (g_tbl g) o) as [j'|] eqn:V'; [|discriminate]. destruct (CM _ eq_refl A0) as [C' NW].
    destruct (IN b) as (B1 & B2 & B3); [right; left; reflexivity|].
    pose proof (quiet_forget P a (a :: rest) g) as [Q1 Q2].
    destruct (OK _ _ _ _ _ _ E1) as (R & Tg & O); auto.
    { cbn. rewrite Q1. exact T. }
    { unfold held, bump, len. cbn. rewrite Q2, D. lia. }
    destruct (O B3) as (D1 & r1 & -> & Fr). cbn [bump with_dup g_dup] in D1, Fr. rewrite Q2, D in D1, Fr. cbn in Fr.
    destruct r1 as [|y r1]; [discriminate|]. injection Fr as ->. cbn [length skipn].
    split.
    { eapply runs_app; [exact R|]. rewrite F1, F2. apply (runs_user ui (i_disasm j) i [b; a] r1 W (variant_named _ _ _ Hi V) Hi). eapply flip_comm; eauto. }
    split; [cbn in Tg |- *; congruence|]. intros _. destruct Qj as [[Q3 _]|[_ Q3]]; [congruence|]. rewrite Q3.
    split; [cbn; rewrite D1, D; reflexivity|]. exists r1. rewrite D. auto. }
  clear FT. apply bind_ok in E as (rv & MR & E).
  apply bind_ok in E as ([[o1 s1] g1] & E1 & E). apply bind_ok in E as (u1 & U1 & E). apply bind_ok in E as (u2 & _ & E).
  injection E as <- <- <-. set (inpts1 := if rv then rev (i_inpt j) else i_inpt j) in *.
  assert (X : rev inpts1 = i_inpt i \/ (i_comm i = true /\ rev inpts1 = rev (i_inpt i))).
  { unfold inpts1. destruct rv; [rewrite rev_involutive; exact VI|]. unfold must_reverse in MR.
    destruct (var_instr (g_tbl g) o) as [j'|] eqn:V'; [|discriminate]. destruct (i_comm j') eqn:C'; [|discriminate].
    destruct (CM _ eq_refl C') as [C2 _]. eapply flip_comm; eauto. }
  assert (IN1 : forall x, In x inpts1 -> clear B x /\ plain x /\ is_write x = false).
  { intros x Hx. apply IN. unfold inpts1 in Hx. destruct rv; [apply in_rev|]; exact Hx. }
  destruct (compute_all_ok B one OK _ _ _ _ _ _ E1 T H IN1) as (rest & R & Tg & D & -> & Fr).
  rewrite skipn_app_exact. split.
  { eapply runs_app; [exact R|]. rewrite F1, F2. apply (runs_user ui (i_disasm j) i (rev inpts1) rest W (variant_named _ _ _ Hi V) Hi X). }
  split; [exact Tg|]. intros NW. destruct Qj as [[Q3 _]|[_ Q3]]; [congruence|]. rewrite Q3.
  split; [cbn [with_dup g_dup]; rewrite D, len_rev; unfold len; cbn [length]; lia|]. exists rest. auto.
Qed.

Lemma compute_one_ok B P solved : forall fuel, one_ok B (compute_one fuel P solved).
Proof.
  induction fuel as [|f IH]; intros o stack g ops stack' g' E T C Po H; [discriminate|]. cbn [compute_one] in E.
  destruct (if small_zeroary P (g_tbl g) o && negb (mem o (g_done g)) then var_instr (g_tbl g) o else None) as [i|] eqn:Z0.
  { destruct (small_zeroary P (g_tbl g) o && negb (mem o (g_done g))) eqn:SZ; [|discriminate].
    apply andb_true_iff in SZ as [SZ _]. unfold small_zeroary in SZ. rewrite Z0 in SZ.
    destruct (i_inpt i) eqn:I; [|discriminate]. destruct (push_zeroary_ok o i i stack g ops stack' g' B T Z0 I eq_refl E) as (A1 & A2 & A3). auto. }
  clear Z0. apply bind_ok in E as (g1 & G1 & E).
  assert (Q : quiet g g1).
  { destruct (_ && _ && _) in G1; [|injection G1 as <-; apply quiet_refl].
    apply bind_ok in G1 as ([[co cs] cg] & G1 & G2). injection G2 as <-. apply clean_stack_ok in G1. apply G1. }
  assert (H1 : held stack g1) by (destruct Q as [_ Q2]; unfold held; rewrite Q2; exact H).
  assert (T1 : table B (g_tbl g1)) by (destruct Q as [Q1 _]; rewrite Q1; exact T).
  assert (K : forall res sx gx, runs ui res stack sx /\ g_tbl gx = g_tbl g1 /\ (is_write o = false -> on_top o stack g1 sx gx) ->
    runs ui res stack sx /\ g_tbl gx = g_tbl g /\ (is_write o = false -> on_top o stack g sx gx)).
  { intros res sx gx (K1 & K2 & K3). destruct Q as [Q1 Q2]. split; [exact K1|]. split; [congruence|]. intros NW. specialize (K3 NW).
    unfold on_top in *. rewrite Q2 in K3. exact K3. }
  apply K. clear K.
  destruct (needs g1 o && _).
  - apply bind_ok in E as (g2 & U & E). injection E as <- <- <-. apply quiet_use_one in U as [U1 U2].
    split; [apply runs_vget; exact Po|]. split; [exact U1|]. intros _. apply on_top_push. cbn. rewrite U2. reflexivity.
  - destruct (index_of o stack) as [idx|] eqn:I; [destruct (idx <? g_reach P)%nat|].
    + destruct (from_stack_ok _ _ _ _ _ _ _ _ _ H1 I E) as (A1 & A2 & A3). auto.
    + exact (compute_term_ok B _ IH P solved _ _ _ _ _ _ E T1 C Po H1).
    + exact (compute_term_ok B _ IH P solved _ _ _ _ _ _ E T1 C Po H1).
Qed.

(** ** The phases *)
Definition intact : list instr -> Prop := table (fun _ => False).
Lemma clear_none o : clear (fun _ => False) o.
Proof. intros i _ _ r _ []. Qed.

Lemma producer_unique : forall i j o, In i ui -> In j ui -> In o (i_outpt i) -> In o (i_outpt j) -> i = j.
Proof.
  pose proof (wf_outs _ W) as N. revert N. unfold outputs. clear. induction ui as [|k l IH]; cbn [flat_map In]; intros N i j o; [tauto|].
  assert (X : forall m, In m l -> In o (i_outpt m) -> In o (i_outpt k) -> False).
  { intros m Hm Om Okk. apply (CheckerProofs.NoDup_app_disj _ _ o N Okk). apply in_flat_map. eauto. }
  intros [-> |Hi] [-> |Hj] Oi Oj; [reflexivity| | |].
  - exfalso. eauto.
  - exfalso. eauto.
  - eapply IH; eauto. eapply CheckerProofs.NoDup_app_r; exact N.
Qed.

Lemma reverse_inputs_twice o i : reverse_inputs o (reverse_inputs o i) = i.
Proof.
  unfold reverse_inputs. destruct i as [a b ins outs c d e]. cbn. destruct outs as [|x [|]]; try reflexivity.
  destruct (String.eqb x o) eqn:E; cbn; rewrite E; [rewrite rev_involutive|]; reflexivity.
Qed.
Lemma reversed_twice i : reversed (reversed i) = i.
Proof. destruct i. unfold reversed. cbn. rewrite rev_involutive. reflexivity. Qed.
Lemma table_weaken (B : nat -> Prop) tbl : intact tbl -> table B tbl.
Proof.
  unfold intact, table. clear. intros T. induction T as [|i j l t V _ IH]; constructor; [|exact IH]. destruct V as [-> | [-> [V|[]]]]; [left|right]; auto.
Qed.
(** The inputs of the operation of one value are reversed: then that operation is in [B]. *)
Lemma table_reverse (B : nat -> Prop) o tbl : (forall i, In i ui -> i_outpt i = [o] -> i_comm i = true \/ B (rank (i_id i))) ->
  intact tbl -> table B (map (reverse_inputs o) tbl).
Proof.
  intros C T. unfold intact, table in *.
  assert (G : forall l, (forall i, In i l -> In i ui) -> forall tbl, Forall2 (variant (fun _ => False)) l tbl -> Forall2 (variant B) l (map (reverse_inputs o) tbl)).
  { clear T tbl. intros l Hl tbl T. induction T as [|i j l tbl V _ IH]; cbn; constructor; [|apply IH; intros k Hk; apply Hl; right; exact Hk].
    destruct (variant_fields _ _ _ V) as (_ & F2 & _). unfold reverse_inputs.
    assert (V' : variant B i j) by (destruct V as [-> | [-> [V|[]]]]; [left|right]; auto).
    destruct (i_outpt j) as [|x [|]] eqn:O; try exact V'. destruct (String.eqb_spec x o) as [->|]; [|exact V'].
    assert (Q : i_comm i = true \/ B (rank (i_id i))) by (apply C; [apply Hl; left; reflexivity|congruence]).
    rewrite <- O. change (variant B i (reversed j)). destruct V as [-> | [-> _]]; [right; auto|left; apply reversed_twice]. }
  apply (G ui); auto.
Qed.

(** A phase: what it appends to the operations does what it did to the stack. *)
Definition good (a b : outcome) : Prop :=
  let '(ops, s, g) := a in let '(ops', s', g') := b in
  intact (g_tbl g) -> exists l, ops' = ops ++ l /\ runs ui l s s' /\ intact (g_tbl g').
Lemma good_refl a : good a a.
Proof. destruct a as [[ops s] g]. intros T. exists []. rewrite app_nil_r. auto using runs_nil. Qed.
Lemma good_trans a b c : good a b -> good b c -> good a c.
Proof.
  destruct a as [[o1 s1] g1], b as [[o2 s2] g2], c as [[o3 s3] g3]. intros A B T. destruct (A T) as (l & -> & R & T2).
  destruct (B T2) as (l' & -> & R' & T3). exists (l ++ l'). rewrite app_assoc. eauto using runs_app.
Qed.
Lemma good_each {X} (f : outcome -> X -> result outcome) xs : (forall a x b, In x xs -> f a x = Ok b -> good a b) ->
  forall a b, for_each f xs a = Ok b -> good a b.
Proof.
  induction xs as [|x xs IH]; cbn; intros F a b E; [injection E as <-; apply good_refl|].
  apply bind_ok in E as (c & E1 & E). eapply good_trans; [eapply F; eauto|eapply IH; eauto].
Qed.
(** The operations of a phase that begins with none, put after others. *)
Lemma good_after ops s g ops' s' g' : good ([], s, g) (ops', s', g') -> good (ops, s, g) (ops ++ ops', s', g').
Proof. intros A T. destruct (A T) as (l & -> & R & T'). exists l. auto. Qed.
Lemma good_quiet ops s g ops' s' g' g0 : quiet g g0 -> good (ops, s, g0) (ops', s', g') -> good (ops, s, g) (ops', s', g').
Proof. intros [Q _] A T. apply A. rewrite Q. exact T. Qed.
Lemma good_quiet_r a ops' s' g' g0 : g_tbl g0 = g_tbl g' -> good a (ops', s', g') -> good a (ops', s', g0).
Proof. destruct a as [[ops s] g]. intros Q A T. destruct (A T) as (l & ? & ? & ?). rewrite Q. eauto. Qed.

Lemma good_clean P o s solved g ops s' g' : clean_stack P o s solved g = Ok (ops, s', g') -> good ([], s, g) (ops, s', g').
Proof. intros E T. apply clean_stack_ok in E as [[Q _] R]. exists ops. rewrite Q. auto. Qed.

Lemma compute_pre_one_good fuel P solved o a b : compute_pre_one fuel P solved a o = Ok b -> good a b.
Proof.
  destruct a as [[ops cs] g], b as [[ops' cs'] g']. unfold compute_pre_one. intros E.
  apply bind_ok in E as ([[co c1] g1] & E1 & E). apply bind_ok in E as (j & J & E). apply of_option_ok in J.
  apply bind_ok in E as (rv & MR & E). apply bind_ok in E as ([[po c2] g2] & E2 & E). apply bind_ok in E as (u & U & E).
  injection E as <- <- <-. intros T. apply clean_stack_ok in E1 as [[Q1 _] R1]. rewrite <- Q1 in T.
  pose proof (var_instr_some _ _ _ J) as [Hj O]. destruct (table_In _ _ _ T Hj) as (i & Hi & V).
  destruct (variant_fields _ _ _ V) as (F1 & F2 & F3 & _). pose proof (variant_inputs _ _ _ V (fun x => x)) as VI.
  set (B := fun r => (rank (i_id i) <= r)%nat).
  assert (UQ : forall k, In k ui -> i_outpt k = [o] -> k = i).
  { intros k Hk Ok. apply (producer_unique k i o); auto; [rewrite Ok|rewrite <- F2, O]; left; reflexivity. }
  set (inpts1 := if rv then rev (i_inpt j) else i_inpt j) in *.
  set (tbl1 := if rv then map (reverse_inputs o) (g_tbl g1) else g_tbl g1) in *.
  assert (CM : rv = false -> i_comm i = true).
  { intros ->. unfold must_reverse in MR. rewrite J in MR. destruct (i_comm j) eqn:C'; [congruence|discriminate]. }
  assert (T1 : table B tbl1).
  { unfold tbl1. destruct rv.
    - apply table_reverse; [|exact T]. intros k Hk Ok. right. rewrite (UQ k Hk Ok). unfold B. lia.
    - apply table_weaken. exact T. }
  assert (X : rev inpts1 = i_inpt i \/ (i_comm i = true /\ rev inpts1 = rev (i_inpt i))).
  { unfold inpts1. destruct rv; [rewrite rev_involutive; exact VI|]. eapply flip_comm; eauto. }
  assert (IN1 : forall x, In x inpts1 -> clear B x /\ plain x /\ is_write x = false).
  { intros x Hx. assert (Hx' : In x (i_inpt i)).
    { eapply variant_members; [exact V|]. unfold inpts1 in Hx. destruct rv; [apply in_rev|]; exact Hx. }
    destruct (wf_vars _ W i x Hi ltac:(apply in_app_iff; auto)) as [Px Wx]. split; [|auto].
    intros k Hk [Ok|[Ok _]] r Hr; [|congruence]. pose proof (ranked i k x Hi Hk Hx' Ok). unfold B. lia. }
  destruct (compute_all_ok B _ (compute_one_ok B P solved fuel) _ _ _ _ _ _ E2) as (rest & R & Tg & D & -> & Fr); auto.
  { unfold held, len. cbn. lia. }
  exists (co ++ po ++ [(i_disasm j, i_id j)]). split; [reflexivity|]. split.
  { eapply runs_app; [exact R1|]. eapply runs_app; [exact R|]. rewrite skipn_app_exact, F1, F2.
    apply (runs_user ui (i_disasm j) i (rev inpts1) rest W (variant_named _ _ _ Hi V) Hi X). }
  destruct (quiet_settle o (with_tbl (map (reverse_inputs o) (g_tbl g2)) g2)) as [Q2 _]. rewrite Q2. cbn [g_tbl with_tbl].
  rewrite Tg. cbn [g_tbl with_tbl with_dup]. unfold tbl1. destruct rv.
  - rewrite map_map, (map_ext _ (fun i => i)), map_id; [exact T|]. intros k. apply reverse_inputs_twice.
  - apply table_reverse; [|exact T]. intros k Hk Ok. left. rewrite (UQ k Hk Ok). auto.
Qed.
Lemma compute_pre_list_good fuel P solved lord cs g b : compute_pre_list fuel P solved lord cs g = Ok b -> good ([], cs, g) b.
Proof. intros E. eapply good_each; [|exact E]. intros a x c _ F. eapply compute_pre_one_good; exact F. Qed.

Lemma quiet_each {A X} (f : A * gstate -> X -> result (A * gstate)) xs :
  (forall a x b, f a x = Ok b -> quiet (snd a) (snd b)) -> forall a b, for_each f xs a = Ok b -> quiet (snd a) (snd b).
Proof.
  intros F. induction xs as [|x xs IH]; cbn; intros a b E; [injection E as <-; apply quiet_refl|].
  apply bind_ok in E as (c & E1 & E). eapply quiet_trans; [eapply F; eauto|eapply IH; eauto].
Qed.
Lemma quiet_pre_list P : forall fuel o cs a b, pre_compute_list fuel P o cs a = Ok b -> quiet (snd a) (snd b).
Proof.
  induction fuel as [|f IH]; intros o cs a b E; [discriminate|]. cbn [pre_compute_list] in E.
  destruct (mem o cs); [injection E as <-; apply quiet_refl|]. apply bind_ok in E as (u & _ & E).
  destruct (mem o (fst a)); [injection E as <-; apply quiet_refl|]. apply bind_ok in E as (i & _ & E).
  apply bind_ok in E as (a1 & E1 & E). apply bind_ok in E as (a2 & E2 & E).
  assert (Q1 : quiet (snd a) (snd a1)) by (eapply quiet_each; [|exact E1]; intros c x d F; exact (IH _ _ _ _ F)).
  assert (Q2 : quiet (snd a1) (snd a2)).
  { destruct (UtilModel.lookup o (g_func_deps P)); [|injection E2 as <-; apply quiet_refl].
    eapply quiet_each; [|exact E2]. cbv beta. intros c x d F. destruct (mem x (g_done (snd c))); [injection F as <-; apply quiet_refl|].
    apply IH in F. cbn [snd] in F. destruct (_ && _) in F; [eapply quiet_trans; [apply quiet_need|exact F]|exact F]. }
  destruct a2 as [lord g2]. destruct (_ && _) in E; injection E as <-; eapply quiet_trans; eauto.
Qed.

Lemma compute_last_good fuel P solved o a b : plain o -> compute_last fuel P solved o a = Ok b -> good a b.
Proof.
  destruct a as [[ops cs] g], b as [[ops' cs'] g']. unfold compute_last. intros Po E.
  apply bind_ok in E as ([[co c1] g1] & E1 & E). apply bind_ok in E as ([[po c2] g2] & E2 & E). injection E as <- <- <-.
  apply good_after. eapply good_trans; [eapply good_clean; exact E1|]. apply good_after. intros T.
  destruct (compute_one_ok (fun _ => False) P solved fuel _ _ _ _ _ _ E2) as (R & Tg & _); auto using clear_none.
  { unfold held, len. cbn. lia. }
  exists po. split; [reflexivity|]. split; [exact R|]. destruct (quiet_settle o g2) as [Q _]. rewrite Q, Tg. exact T.
Qed.
Lemma compute_memory_op_good fuel P solved o cs g b : plain o -> compute_memory_op fuel P solved o cs g = Ok b -> good ([], cs, g) b.
Proof.
  unfold compute_memory_op. intros Po E. apply bind_ok in E as ([lord g1] & E1 & E). apply bind_ok in E as (a & E2 & E).
  apply quiet_pre_list in E1. cbn [snd] in E1. apply compute_pre_list_good in E2.
  assert (A : good ([], cs, g) a) by (destruct a as [[? ?] ?]; eapply good_quiet; eauto). clear E1 E2.
  destruct (negb (is_write o)).
  - apply bind_ok in E as (l & _ & E). apply bind_ok in E as (u & _ & E). injection E as <-. exact A.
  - eapply good_trans; [exact A|]. eapply compute_last_good; eauto.
Qed.
Lemma compute_regular_op_good fuel P solved o cs g b : plain o -> compute_regular_op fuel P solved o cs g = Ok b -> good ([], cs, g) b.
Proof.
  unfold compute_regular_op. intros Po E. apply bind_ok in E as ([lord g1] & E1 & E). apply bind_ok in E as (a & E2 & E).
  apply quiet_pre_list in E1. cbn [snd] in E1. apply compute_pre_list_good in E2.
  assert (A : good ([], cs, g) a) by (destruct a as [[? ?] ?]; eapply good_quiet; eauto). clear E1 E2.
  destruct (mem o lord); [injection E as <-; exact A|]. eapply good_trans; [exact A|]. eapply compute_last_good; eauto.
Qed.
Lemma good_dup ops s g b : good (ops, s, with_dup 0 g) b -> good (ops, s, g) b.
Proof. destruct b as [[? ?] ?]. intros A T. apply A. exact T. Qed.
Lemma run_memory_good fuel P solved ms cs g b : (forall m, In m ms -> plain m) -> run_memory fuel P solved ms cs g = Ok b -> good ([], cs, g) b.
Proof.
  intros Pm E. eapply good_each; [|exact E]. intros [[o s] g0] m c Hm F. cbv beta iota in F.
  apply bind_ok in F as ([[o1 s1] g1] & F & F'). injection F' as <-. apply compute_memory_op_good in F; [|auto].
  apply good_after. apply good_dup. exact F.
Qed.

Lemma pop_unneeded_good P solved g g0 : forall s, good ([], s, g0) (fst (pop_unneeded P solved g s), snd (pop_unneeded P solved g s), g0).
Proof.
  induction s as [|x s IH]; cbn [pop_unneeded]; [apply good_refl|]. destruct (_ && _ && _); [|apply good_refl].
  cbn [fst snd]. intros T. destruct (IH T) as (l & El & R & _). cbn in El. exists (same "POP" :: l). split; [cbn; rewrite El; reflexivity|].
  split; [|exact T]. exact (runs_app ui [same "POP"] l _ _ _ (runs_pop ui x s) R).
Qed.

(** ** The loop *)
Definition view (l : lstate) : outcome := (l_ops l, l_stack l, l_g l).
Definition names_ok (l : lstate) : Prop := forall m, In m (l_instr l) -> plain m.
Lemma good_swap ops s g pos s' : swap_top s pos = Ok s' -> 1 <= pos -> good (ops, s, g) (ops ++ [same (swap_name pos)], s', g).
Proof. intros E L T. exists [same (swap_name pos)]. split; [reflexivity|]. split; [apply runs_swap; auto|exact T]. Qed.

Lemma do_place_good P posc l l' : do_place P posc l = Ok l' -> names_ok l -> good (view l) (view l') /\ names_ok l'.
Proof.
  unfold do_place. intros E N. apply bind_ok in E as (top & _ & E). apply bind_ok in E as (x & _ & E). destruct (String.eqb top x).
  - apply bind_ok in E as (u & _ & E). injection E as <-. split; [apply good_refl|exact N].
  - apply bind_ok in E as (u & U & E). apply bind_ok in E as (s1 & SW & E). apply bind_ok in E as (u1 & _ & E). injection E as <-.
    apply py_assert_ok, andb_true_iff in U as [U _]. apply Z.ltb_lt in U. split; [|exact N].
    apply good_swap; [exact SW|lia].
Qed.

Lemma last_with_lt test l : forall n k, last_with test n l = Ok (Some k) -> (k < n)%nat.
Proof.
  induction n as [|n IH]; cbn; intros k E; [discriminate|]. apply bind_ok in E as (x & _ & E). apply bind_ok in E as (b & _ & E).
  destruct b; [injection E as <-; lia|]. apply IH in E. lia.
Qed.
Lemma In_firstn {A} (x : A) n l : In x (firstn n l) -> In x l.
Proof. intros H. rewrite <- (firstn_skipn n l). apply in_app_iff. auto. Qed.
Lemma In_skipn {A} (x : A) n l : In x (skipn n l) -> In x l.
Proof. intros H. rewrite <- (firstn_skipn n l). apply in_app_iff. auto. Qed.
Lemma before_value_good fuel P o l out rest ns b : names_ok l -> before_value fuel P o l = Ok (out, rest, ns, b) ->
  good ([], l_stack l, l_g l) out /\ forall m, In m rest -> plain m.
Proof.
  unfold before_value. intros N E. apply bind_ok in E as (i & I & E). apply bind_ok in E as (j & _ & E).
  assert (G : forall plan, (do plan <- plan; let '(p, instr, nostore, before_store) := plan in
      do out <- run_memory fuel P (l_solved l) (firstn p instr) (l_stack l) (l_g l);
      let rest := skipn p instr in Ok (out, rest, match rest with [] => [] | _ => nostore end, before_store)) = Ok (out, rest, ns, b) ->
    (forall p instr n s, plan = Ok (p, instr, n, s) -> forall m, In m instr -> plain m) ->
    good ([], l_stack l, l_g l) out /\ forall m, In m rest -> plain m).
  { clear E. intros plan E Hp. apply bind_ok in E as ([[[p ins] n] s] & Ep & E). apply bind_ok in E as (o1 & E1 & E). injection E as -> <- _ _.
    specialize (Hp _ _ _ _ Ep). split; [eapply run_memory_good; [|exact E1]|]; intros m Hm; apply Hp.
    - eapply In_firstn; eauto.
    - eapply In_skipn; eauto. }
  destruct i as [k|].
  - apply G in E; [exact E|]. clear G E. intros p ins n s E m Hm. apply N. destruct j as [q|].
    + injection E as _ <- _ _. exact Hm.
    + apply bind_ok in E as (m' & _ & E). destruct (String.eqb m' o); injection E as _ <- _ _; [|exact Hm].
      apply in_app_iff in Hm as [Hm|Hm]; [eapply In_firstn; eauto|exact (In_skipn _ (S k) _ Hm)].
  - destruct j as [q|].
    + apply G in E; [exact E|]. intros p ins n s E' m Hm. injection E' as _ <- _ _. apply N. exact Hm.
    + injection E as <- <- _ _. split; [apply good_refl|exact N].
Qed.

Lemma do_build_good fuel P pos l l' : (forall x, In x (g_final P) -> plain x) -> do_build fuel P pos l = Ok l' -> names_ok l ->
  good (view l) (view l') /\ names_ok l'.
Proof.
  unfold do_build. intros PF E N. apply bind_ok in E as (o & O & E). apply of_option_ok in O. apply nth_error_In in O.
  apply bind_ok in E as ([[[out rest] ns] bs] & E1 & E). destruct (before_value_good _ _ _ _ _ _ _ _ N E1) as [A1 A2]. clear E1.
  destruct out as [[o1 s1] g1]. apply bind_ok in E as ([[o2 s2] g2] & E2 & E).
  assert (A3 : good ([], s1, g1) (o2, s2, g2)).
  { apply good_dup. destruct bs; [eapply compute_memory_op_good|eapply compute_regular_op_good]; eauto. }
  apply bind_ok in E as (g3 & E3 & E).
  assert (T3 : g_tbl g3 = g_tbl g2).
  { destruct (_ && _) in E3; [|injection E3 as <-; reflexivity]. apply bind_ok in E3 as (t & _ & E3). injection E3 as <-. reflexivity. }
  assert (A : good (l_ops l, l_stack l, l_g l) (l_ops l ++ o1 ++ o2, s2, g3)).
  { apply good_after. eapply good_trans; [exact A1|]. apply good_after. eapply good_quiet_r; [|exact A3]. exact T3. }
  destruct (_ && _) eqn:C in E.
  - apply bind_ok in E as (s3 & SW & E). apply bind_ok in E as (u & _ & E). injection E as <-. split; [|exact A2].
    apply andb_true_iff in C as [C _]. apply Z.ltb_lt in C. unfold view. cbn [l_ops l_stack l_g].
    eapply good_trans; [exact A|]. rewrite !app_assoc. rewrite <- (app_assoc (l_ops l)). apply good_swap; [exact SW|lia].
  - injection E as <-. split; [exact A|exact A2].
Qed.
Lemma do_memory_good fuel P l l' : do_memory fuel P l = Ok l' -> names_ok l -> good (view l) (view l') /\ names_ok l'.
Proof.
  unfold do_memory. intros E N. unfold names_ok in N. destruct (l_instr l) as [|o ins]; [discriminate|].
  apply bind_ok in E as ([[o1 s1] g1] & E1 & E). apply bind_ok in E as (u & _ & E). injection E as <-. split; [|intros m Hm; apply N; right; exact Hm].
  apply good_after. apply good_dup. eapply compute_memory_op_good; [|exact E1]. apply N. left. reflexivity.
Qed.
Lemma do_finish_good fuel P l l' : do_finish fuel P l = Ok l' -> names_ok l -> good (view l) (view l') /\ names_ok l'.
Proof.
  unfold do_finish. intros E N. apply bind_ok in E as (u & _ & E). apply bind_ok in E as ([[o1 s1] g1] & E1 & E). injection E as <-.
  split; [|intros m []]. eapply good_each; [|exact E1]. intros [[o s] g] m c Hm F. cbv beta iota in F.
  apply bind_ok in F as ([[o2 s2] g2] & F & F'). injection F' as <-. apply compute_memory_op_good in F; [|apply N; exact Hm].
  apply good_after. eapply good_trans; [apply good_dup; exact F|]. apply good_after. apply pop_unneeded_good.
Qed.

Lemma search_step_good fuel P l l' b : (forall x, In x (g_final P) -> plain x) -> search_step fuel P l = Ok (l', b) -> names_ok l ->
  good (view l) (view l') /\ names_ok l'.
Proof.
  unfold search_step. intros PF E N. set (r := pop_unneeded P (l_solved l) (l_g l) (l_stack l)) in *.
  set (l1 := {| l_ops := _; l_stack := _; l_solved := _; l_instr := _; l_nostore := _; l_g := _ |}) in E.
  assert (A : good (view l) (view l1)) by (apply good_after, pop_unneeded_good).
  assert (N1 : names_ok l1) by exact N.
  apply bind_ok in E as (st & _ & E). apply bind_ok in E as ([l2 stop] & E2 & E). injection E as <- <-.
  assert (G : good (view l1) (view l2) /\ names_ok l2).
  { destruct st.
    - apply bind_ok in E2 as (l3 & E3 & E2). injection E2 as <- _. eapply do_memory_good; eauto.
    - apply bind_ok in E2 as (c & _ & E2). destruct c as [posc|pos|]; apply bind_ok in E2 as (l3 & E3 & E2); injection E2 as <- _.
      + eapply do_place_good; eauto.
      + eapply do_build_good; eauto.
      + eapply do_finish_good; eauto. }
  destruct G as [G1 G2]. split; [|exact G2]. exact (good_trans _ _ _ A G1).
Qed.
Lemma search_loop_good fuel P : (forall x, In x (g_final P) -> plain x) -> forall n l l', search_loop n fuel P l = Ok l' -> names_ok l ->
  good (view l) (view l').
Proof.
  intros PF. induction n as [|n IH]; cbn [search_loop]; intros l l' E N; [discriminate|].
  apply bind_ok in E as ([l1 b] & E1 & E). cbn [fst snd] in E. destruct (search_step_good _ _ _ _ _ PF E1 N) as [A N1].
  destruct b; [injection E as <-; exact A|]. exact (good_trans _ _ _ A (IH _ _ E N1)).
Qed.
Lemma precompute_loop_good P : forall fuel s ops g b, precompute_loop fuel P s ops g = Ok b -> good (ops, s, g) b.
Proof.
  induction fuel as [|f IH]; intros [|top rest] ops g b E; cbn [precompute_loop] in E; try discriminate;
    try (injection E as <-; apply good_refl).
  destruct (match need g top with None => true | Some n => n =? 0 end).
  - apply IH in E. eapply good_trans; [|exact E]. intros T. exists [same "POP"]. split; [reflexivity|]. split; [apply runs_pop|exact T].
  - destruct (home _ _ _) as [pos|]; [|injection E as <-; apply good_refl]. apply bind_ok in E as (u & U & E).
    apply py_assert_ok, Z.leb_le in U. destruct (_ || _) eqn:C in E; [injection E as <-; apply good_refl|].
    apply orb_false_iff in C as [_ C]. apply Z.eqb_neq in C. apply bind_ok in E as (x & _ & E).
    destruct (String.eqb x top); [injection E as <-; apply good_refl|]. apply bind_ok in E as (s1 & SW & E).
    apply IH in E. eapply good_trans; [|exact E]. apply good_swap; [exact SW|lia].
Qed.
Lemma already_solved_tbl : forall rs rf j solved g r, already_solved rs rf j solved g = Ok r -> g_tbl (snd r) = g_tbl g.
Proof.
  induction rs as [|x rs IH]; intros [|y rf] j solved g r E; cbn [already_solved] in E; try (injection E as <-; reflexivity).
  destruct (String.eqb x y); [|eapply IH; eauto]. apply bind_ok in E as (g1 & G & E). apply IH in E. rewrite E.
  destruct (need g x); [|injection G as <-; reflexivity]. apply bind_ok in G as (u & _ & G). injection G as <-. reflexivity.
Qed.

Lemma search_runs fuel P pending nostore g ops tbl : search fuel P pending nostore g = Ok (ops, tbl) ->
  intact (g_tbl g) -> all_plain (g_initial P) -> all_plain (g_final P) -> all_plain pending ->
  (forall z, In (swap_name z) (map snd ops) -> 1 <= z) ->
  runs ui ops (g_initial P) (g_final P) /\ intact tbl.
Proof.
  unfold search, precompute, compute. intros E T PI PF PP Hz. apply bind_ok in E as ([[[ini s0] g0] solved] & E0 & E).
  apply bind_ok in E0 as ([[o1 s1] g1] & E1 & E0). apply bind_ok in E0 as (sv & E2 & E0). injection E0 as <- <- <- <-.
  apply bind_ok in E as (l & E3 & E). apply bind_ok in E as (pids & E4 & E). injection E as <- <-.
  apply precompute_loop_good in E1. apply already_solved_tbl in E2. apply search_loop_good in E3; [|exact PF|exact PP].
  destruct (E1 T) as (a & Ea & R1 & T1). cbn in Ea. subst a.
  unfold view in E3. cbn [l_ops l_stack l_g] in E3. destruct E3 as (b & Eb & R2 & T2); [rewrite E2; exact T1|]. cbn in Eb. subst b.
  split; [|exact T2]. eapply runs_app; [exact R1|]. eapply runs_app; [exact R2|].
  unfold compute_permut_and_clean in E4. apply PermutProps.permut_loop_emits in E4 as (pl & -> & H); [|cbn; lia]. cbn [p_ids p_c p_reg app] in *.
  apply (acts_runs ui (Z.of_nat (g_reach P)) pl (l_stack l, []) (g_final P, [])).
  - apply H. intros z Hi. apply Hz. rewrite !map_app, !in_app_iff. right. right. rewrite map_map. rewrite map_id. exact Hi.
  - cbn [fst snd]. rewrite app_nil_r. intros x Hx. apply R2; [|exact Hx]. apply R1. exact PI.
Qed.
End Table.
