(** Proofs about the search: the operations without a result are executed as
    planned, each where it comes in the list of pending operations. *)
From Verif Require Import Base Lexical SymExecModel AsmModel FootprintSpec.
From Verif Require UtilModel UtilProps PermutProps LevelProps.
From Verif Require Import PermutModel SearchModel SearchSpec SearchProofs StoreSpec.
Open Scope string_scope. Open Scope list_scope. Open Scope Z_scope.

Definition values (l : list string) : Prop := forall x, In x l -> is_write x = false.
Lemma values_app a b : values a -> values b -> values (a ++ b).
Proof. intros A B x Hx. apply in_app_iff in Hx as [Hx|Hx]; auto. Qed.
Lemma values_incl a b : (forall x, In x b -> In x a) -> values a -> values b.
Proof. intros I A x Hx. auto. Qed.

(** Names of stack operations are not names of stores. *)
Lemma write_pop : is_write "POP" = false. Proof. reflexivity. Qed.
Lemma write_swap z : is_write (swap_name z) = false. Proof. reflexivity. Qed.
Lemma write_dup n : is_write (dup_id n) = false. Proof. reflexivity. Qed.
Lemma write_vget x : is_write (vget_id x) = false. Proof. reflexivity. Qed.
Lemma write_vset x : is_write (vset_id x) = false. Proof. reflexivity. Qed.

Lemma znth_In l i x : znth l i = Some x -> In x l.
Proof. unfold znth. destruct (i <? 0); [destruct (_ <? 0); [discriminate|]|]; apply nth_error_In. Qed.
Lemma slice_In l a b x : In x (slice l a b) -> In x l.
Proof. unfold slice. intros H. eapply In_skipn, In_firstn, H. Qed.
Lemma swap_top_In s i s' x : swap_top s i = Ok s' -> In x s' -> In x s.
Proof.
  unfold swap_top. intros E. apply bind_ok in E as (y & Y & E). apply bind_ok in E as (t & T & E). injection E as <-.
  apply of_option_ok, znth_In in Y, T. cbn [app In]. rewrite in_app_iff. cbn [In]. intros [<-|[H|[<-|H]]]; auto; eapply slice_In; eauto.
Qed.
Lemma rotate_In n : forall i s ops ops' s' x, rotate n i s ops = Ok (ops', s') -> In x s' -> In x s.
Proof.
  induction n as [|n IH]; cbn [rotate]; intros i s ops ops' s' x E Hx; [injection E as <- <-; exact Hx|].
  apply bind_ok in E as (y & _ & E). apply bind_ok in E as (t & _ & E). destruct (String.eqb t y); [eapply IH; eauto|].
  apply bind_ok in E as (s1 & S1 & E). eapply swap_top_In; eauto.
Qed.
Lemma rotate_swaps n : forall i s ops ops' s', rotate n i s ops = Ok (ops', s') ->
  exists l, ops' = ops ++ l /\ forall o, In o l -> is_write (snd o) = false.
Proof.
  induction n as [|n IH]; cbn [rotate]; intros i s ops ops' s' E; [injection E as <- <-; exists []; rewrite app_nil_r; split; [reflexivity|intros ? []]|].
  apply bind_ok in E as (y & _ & E). apply bind_ok in E as (t & _ & E). destruct (String.eqb t y); [eapply IH; eauto|].
  apply bind_ok in E as (s1 & S1 & E). apply IH in E as (l & -> & A). exists (same (swap_name (Z.of_nat i)) :: l).
  split; [rewrite <- app_assoc; reflexivity|]. intros o [<-|Ho]; [apply write_swap|auto].
Qed.
Lemma skipn_values n l : values l -> values (skipn n l).
Proof. apply values_incl. intros x. apply In_skipn. Qed.

Lemma keys_set {A} k (v : A) d x : In x (map fst (UtilModel.dict_set k v d)) -> x = k \/ In x (map fst d).
Proof.
  induction d as [|[k' v'] d IH]; cbn; [intros [H|[]]; auto|]. destruct (String.eqb_spec k' k); cbn; intros [H|H]; auto.
  destruct (IH H); auto.
Qed.
Lemma keys_drop o d x : In x (map fst (drop_key o d)) -> In x (map fst d).
Proof. unfold drop_key. rewrite !in_map_iff. intros (kv & E & H). apply filter_In in H as [H _]. eauto. Qed.
Lemma lookup_key {A} k (v : A) d : UtilModel.lookup k d = Some v -> In k (map fst d).
Proof. intros H. apply in_map_iff. exists (k, v). split; [reflexivity|]. apply UtilProps.lookup_In. exact H. Qed.
Lemma index_of_In x l n : index_of x l = Some n -> In x l.
Proof. intros H. apply index_of_nth in H. eapply nth_error_In; eauto. Qed.

Section Order.
Context (ui : list instr) (W : well_formed ui).
(** The synthesizer recognises the operations without a result by their id. *)
Context (N : forall i, In i ui -> i_outpt i = [] -> is_write (i_id i) = true).

Lemma store_write id : store ui id = true -> is_write id = true.
Proof.
  unfold store. rewrite existsb_exists. intros (i & Hi & E). apply andb_true_iff in E as [E1 E2]. apply String.eqb_eq in E1. subst id.
  apply N; [exact Hi|]. destruct (i_outpt i); [reflexivity|discriminate].
Qed.
Lemma value_store id : is_write id = false -> store ui id = false.
Proof. intros H. destruct (store ui id) eqn:E; [|reflexivity]. apply store_write in E. congruence. Qed.

Definition stores (ids : list string) : list string := filter (store ui) ids.
Lemma stores_app a b : stores (a ++ b) = stores a ++ stores b.
Proof. unfold stores. induction a as [|x a IH]; cbn; [reflexivity|]. destruct (store ui x); cbn; rewrite IH; reflexivity. Qed.
Lemma stores_flat l : flat_map (fun o => stores [o]) l = stores l.
Proof. induction l as [|x l IH]; [reflexivity|]. cbn [flat_map]. rewrite IH. symmetry. exact (stores_app [x] l). Qed.
Lemma stores_none l : values l -> stores l = [].
Proof.
  unfold stores. induction l as [|x l IH]; cbn; intros V; [reflexivity|]. rewrite value_store by (apply V; left; reflexivity).
  apply IH. intros y Hy. apply V. right. exact Hy.
Qed.
Lemma stores_ops l : (forall o : op, In o l -> is_write (snd o) = false) -> stores (map snd l) = [].
Proof. intros H. apply stores_none. intros x Hx. apply in_map_iff in Hx as (o & <- & Ho). auto. Qed.

(** The instructions, whatever the order of their operands. *)
Definition shape : list instr -> Prop :=
  Forall2 (fun i j => i_id j = i_id i /\ i_outpt j = i_outpt i /\ forall x, In x (i_inpt j) -> In x (i_inpt i)) ui.
Lemma shape_In tbl j : shape tbl -> In j tbl ->
  exists i, In i ui /\ i_id j = i_id i /\ i_outpt j = i_outpt i /\ forall x, In x (i_inpt j) -> In x (i_inpt i).
Proof.
  unfold shape. intros H. clear W N. induction H as [|i k l t V _ IH]; intros Hj; [destruct Hj|]. destruct Hj as [->|Hj].
  - exists i. split; [left; reflexivity|exact V].
  - destruct (IH Hj) as (i' & Hi & V'). exists i'. split; [right; exact Hi|exact V'].
Qed.
Lemma shape_reverse o tbl : shape tbl -> shape (map (reverse_inputs o) tbl).
Proof.
  unfold shape. clear. intros H. induction H as [|i j l t (A & B & C) _ IH]; cbn; constructor; [|exact IH].
  unfold reverse_inputs. destruct (i_outpt j) as [|y [|]] eqn:O; try (rewrite O; auto; fail).
  destruct (String.eqb y o); cbn; rewrite ?O; repeat split; auto. intros x Hx. apply C. apply in_rev. exact Hx.
Qed.
Lemma same_id i j : In i ui -> In j ui -> i_id i = i_id j -> i = j.
Proof.
  intros Hi Hj E. pose proof (wf_ids _ W) as ND. clear W N. induction ui as [|k l IH]; [destruct Hi|]. cbn in ND. inversion ND as [|? ? Nk Nl]; subst.
  destruct Hi as [->|Hi], Hj as [->|Hj]; auto.
  - exfalso. apply Nk. rewrite E. apply in_map. exact Hj.
  - exfalso. apply Nk. rewrite <- E. apply in_map. exact Hi.
Qed.
Lemma shape_outs tbl j : shape tbl -> In j tbl -> values (i_outpt j).
Proof.
  intros S Hj x Hx. destruct (shape_In _ _ S Hj) as (i & Hi & _ & O & _). apply (wf_vars _ W i x Hi). apply in_app_iff. right. congruence.
Qed.
Lemma shape_ins tbl j : shape tbl -> In j tbl -> values (i_inpt j).
Proof.
  intros S Hj x Hx. destruct (shape_In _ _ S Hj) as (i & Hi & _ & _ & I). apply (wf_vars _ W i x Hi). apply in_app_iff. left. auto.
Qed.
(** The operation that computes a value is not a store. *)
Lemma var_no_store tbl o j : shape tbl -> var_instr tbl o = Some j -> store ui (i_id j) = false.
Proof.
  intros S H. apply var_instr_some in H as [Hj O]. destruct (shape_In _ _ S Hj) as (i & Hi & E & O' & _).
  destruct (store ui (i_id j)) eqn:X; [|reflexivity]. unfold store in X. rewrite existsb_exists in X. destruct X as (k & Hk & X).
  apply andb_true_iff in X as [X1 X2]. apply String.eqb_eq in X1. rewrite (same_id k i Hk Hi) in X2 by congruence. rewrite <- O', O in X2. discriminate.
Qed.
Lemma var_value tbl o j : shape tbl -> var_instr tbl o = Some j -> is_write o = false.
Proof. intros S H. apply var_instr_some in H as [Hj O]. apply (shape_outs _ _ S Hj). rewrite O. left. reflexivity. Qed.

(** The stack and the keys of the counts are values. *)
Definition tame (s : list string) (g : gstate) : Prop := shape (g_tbl g) /\ values s /\ values (map fst (g_need g)).
Definition less (g g' : gstate) : Prop := g_tbl g' = g_tbl g /\ forall x, In x (map fst (g_need g')) -> In x (map fst (g_need g)).
Lemma less_refl g : less g g. Proof. split; auto. Qed.
Lemma less_trans a b c : less a b -> less b c -> less a c.
Proof. intros [A A'] [B B']. split; [congruence|auto]. Qed.
Lemma less_drop o g : less g (with_need (drop_key o (g_need g)) g).
Proof. split; [reflexivity|]. cbn. intros x. apply keys_drop. Qed.
Lemma less_set o v g k : need g o = Some k -> less g (with_need (UtilModel.dict_set o v (g_need g)) g).
Proof. intros H. split; [reflexivity|]. cbn. intros x Hx. apply keys_set in Hx as [->|Hx]; [eapply lookup_key; exact H|exact Hx]. Qed.
Lemma less_settle o g : less g (settle o g).
Proof. unfold settle. destruct (mem o (g_todo g)); split; auto. Qed.
Lemma less_use_one o g g' : use_one o g = Ok g' -> less g g'.
Proof.
  unfold use_one. destruct (need g o) eqn:E; [|discriminate]. intros H. apply bind_ok in H as (u & _ & H). injection H as <-. eapply less_set; eauto.
Qed.
Lemma less_use_term o g g' : use_term o g = Ok g' -> less g g'.
Proof.
  unfold use_term. generalize (map fst (g_need g)) at 1. intros l.
  assert (G : forall g0, for_each (fun g' n => match need g' n with
    | Some k => if 0 <? k then do nn <- needed n o g; do _ <- py_assert (nn <=? k); Ok (with_need (UtilModel.dict_set n (k - nn) (g_need g')) g') else Ok g'
    | None => Raise OtherError end) l g0 = Ok g' -> less g0 g').
  { induction l as [|x l IH]; cbn; intros g0 E; [injection E as <-; apply less_refl|].
    apply bind_ok in E as (g1 & E1 & E). apply IH in E. eapply less_trans; [|exact E].
    destruct (need g0 x) as [k|] eqn:K; [|discriminate]. destruct (0 <? k); [|injection E1 as <-; apply less_refl].
    apply bind_ok in E1 as (nn & _ & E1). apply bind_ok in E1 as (u & _ & E1). injection E1 as <-. eapply less_set; eauto. }
  apply G.
Qed.
Lemma less_forget P x s g : less g (forget_extra P x s g).
Proof. unfold forget_extra. destruct (_ <? _); [apply less_drop|apply less_refl]. Qed.
Lemma less_with_dup d g g' : less g g' -> less g (with_dup d g').
Proof. intros [A B]. split; auto. Qed.
Lemma tame_less s g s' g' : tame s g -> less g g' -> values s' -> tame s' g'.
Proof. intros (A & B & C) [L1 L2] V. split; [rewrite L1; exact A|]. split; [exact V|]. intros x Hx. auto. Qed.

(** A phase appends operations, of which the stores are [e]. *)
Definition emits (e : list string) (a b : outcome) : Prop :=
  let '(ops, s, g) := a in let '(ops', s', g') := b in
  tame s g -> exists l, ops' = ops ++ l /\ stores (map snd l) = e /\ tame s' g'.
Lemma emits_refl a : emits [] a a.
Proof. destruct a as [[ops s] g]. intros T. exists []. rewrite app_nil_r. auto. Qed.
Lemma emits_trans e f a b c : emits e a b -> emits f b c -> emits (e ++ f) a c.
Proof.
  destruct a as [[o1 s1] g1], b as [[o2 s2] g2], c as [[o3 s3] g3]. intros A B T. destruct (A T) as (l & -> & R & T2).
  destruct (B T2) as (l' & -> & R' & T3). exists (l ++ l'). rewrite app_assoc, map_app, stores_app, R, R'. auto.
Qed.
Lemma emits_after e ops s g ops' s' g' : emits e ([], s, g) (ops', s', g') -> emits e (ops, s, g) (ops ++ ops', s', g').
Proof. intros A T. destruct (A T) as (l & -> & R & T'). exists l. auto. Qed.
Lemma emits_dup e ops s g d b : emits e (ops, s, with_dup d g) b -> emits e (ops, s, g) b.
Proof. destruct b as [[? ?] ?]. intros A T. apply A. exact T. Qed.
Lemma emits_each {X} (f : outcome -> X -> result outcome) (h : X -> list string) xs :
  (forall a x b, In x xs -> f a x = Ok b -> emits (h x) a b) -> forall a b, for_each f xs a = Ok b -> emits (flat_map h xs) a b.
Proof.
  induction xs as [|x xs IH]; cbn [for_each flat_map]; intros F a b E; [injection E as <-; apply emits_refl|].
  apply bind_ok in E as (c & E1 & E). eapply emits_trans; [apply (F a x c (or_introl eq_refl) E1)|apply IH; [|exact E]].
  intros a0 x0 b0 H. apply F. right. exact H.
Qed.
(** Only stack operations, and the new stack made of values. *)
Lemma emits_plain ops s g l s' g' : (forall o : op, In o l -> is_write (snd o) = false) -> less g g' ->
  (values s -> values (map fst (g_need g)) -> values s') -> emits [] (ops, s, g) (ops ++ l, s', g').
Proof.
  intros L G V T. exists l. split; [reflexivity|]. split; [apply stores_ops; exact L|]. destruct T as (A & B & C).
  eapply tame_less; [split; [exact A|split; [exact B|exact C]]|exact G|auto].
Qed.

Lemma clean_loop_emits P solved : forall n i s ops g b, clean_loop n i P s solved ops g = Ok b -> emits [] (ops, s, g) b.
Proof.
  induction n as [|n IH]; cbn [clean_loop]; intros i s ops g b E; [discriminate|].
  destruct (_ && _ && _); [|injection E as <-; apply emits_refl].
  destruct (_ && _ && _ && _); [|injection E as <-; apply emits_refl].
  set (j := clean_from _ _ _ _ _ _) in *.
  apply bind_ok in E as (s1 & S1 & E). destruct s1 as [|opr s2]; [discriminate|].
  apply IH in E. eapply (emits_trans [] []); [|exact E]. apply emits_plain.
  - intros o [<-|[<-|[]]]; [apply write_swap|reflexivity].
  - apply less_drop.
  - intros V _ x Hx. apply V. eapply swap_top_In; [exact S1|]. right. exact Hx.
Qed.
Lemma clean_stack_emits P o s solved g b : clean_stack P o s solved g = Ok b -> emits [] ([], s, g) b.
Proof.
  unfold clean_stack. intros E. apply bind_ok in E as (far & _ & E). destruct (_ <=? _); [injection E as <-; apply emits_refl|].
  eapply clean_loop_emits; exact E.
Qed.
Lemma clean_stack_less P o s solved g ops s' g' : clean_stack P o s solved g = Ok (ops, s', g') -> less g g'.
Proof.
  unfold clean_stack. intros E. apply bind_ok in E as (far & _ & E). destruct (_ <=? _); [injection E as _ _ <-; apply less_refl|].
  revert E. generalize (S (length s)) at 1. generalize 0%nat. generalize (@nil op). intros ops0 i n. revert i s ops0 g.
  induction n as [|n IH]; cbn [clean_loop]; intros i s0 ops0 g E; [discriminate|].
  destruct (_ && _ && _); [|injection E as _ _ <-; apply less_refl].
  destruct (_ && _ && _ && _); [|injection E as _ _ <-; apply less_refl].
  apply bind_ok in E as (s1 & S1 & E). destruct s1 as [|opr s2]; [discriminate|]. apply IH in E. eapply less_trans; [apply less_drop|exact E].
Qed.

(** ** One value or operation *)
Definition one_emits (one : string -> list string -> gstate -> result outcome) : Prop :=
  forall o s g b, one o s g = Ok b -> emits (stores [o]) ([], s, g) b.

Lemma push_zeroary_emits o i s g b : var_instr (g_tbl g) o = Some i -> push_zeroary o i s g = Ok b -> emits (stores [o]) ([], s, g) b.
Proof.
  intros I E. destruct b as [[ops s'] g']. intros T. pose proof T as (Sh & V & K).
  pose proof (var_value _ _ _ Sh I) as Wo. pose proof (var_no_store _ _ _ Sh I) as NS.
  assert (So : stores [o] = []) by (apply stores_none; intros x [<-|[]]; exact Wo). rewrite So.
  assert (Vs : values (o :: s)) by (intros x [<-|Hx]; auto).
  unfold push_zeroary in E. destruct (_ && _) in E.
  - apply bind_ok in E as (nm & _ & E). injection E as <- <- <-. exists [(nm, i_id i)]. split; [reflexivity|].
    split; [unfold stores; cbn; rewrite NS; reflexivity|]. split; [exact Sh|]. auto.
  - apply bind_ok in E as (g1 & G & E). injection E as <- <- <-. exists [(i_disasm i, i_id i)]. split; [reflexivity|].
    split; [unfold stores; cbn; rewrite NS; reflexivity|]. eapply tame_less; [exact T| |exact Vs].
    eapply less_trans; [apply (less_trans _ (bump g)); [split; auto|apply less_settle]|].
    destruct (needs _ _) in G; [eapply less_use_one; exact G|injection G as <-; apply less_refl].
Qed.

Lemma take_emits P o s solved idx g b : take_from_stack P o s solved idx g = Ok (Some b) -> emits [] ([], s, g) b.
Proof.
  unfold take_from_stack. intros E. destruct (_ && _) in E; [|discriminate]. apply bind_ok in E as (pos & _ & E).
  destruct (_ && _) in E; [|discriminate]. destruct (g_dup g =? 0).
  - destruct (pos =? 0); [injection E as <-; apply (emits_plain []); [intros ? []|split; auto|auto]|].
    apply bind_ok in E as (x & _ & E). apply bind_ok in E as (u & _ & E). apply bind_ok in E as (s1 & S1 & E). injection E as <-.
    apply (emits_plain [] s g [_]); [intros ? [<-|[]]; apply write_swap|apply less_with_dup, less_drop|].
    intros V _ y Hy. apply V. eapply swap_top_In; eauto.
  - destruct (solved_below _ _); [discriminate|]. apply bind_ok in E as (u & _ & E). destruct (pos <=? _); [|discriminate].
    apply bind_ok in E as ([ops1 s1] & R & E). apply bind_ok in E as (u1 & _ & E). injection E as <-. cbn [fst snd].
    destruct (rotate_swaps _ _ _ _ _ _ R) as (l & -> & L). apply (emits_plain [] s g); [exact L|apply less_with_dup, less_drop|].
    intros V _ y Hy. apply V. eapply rotate_In; eauto.
Qed.
Lemma from_stack_emits P o s solved idx g b : index_of o s = Some idx -> from_stack P o s solved idx g = Ok b -> emits (stores [o]) ([], s, g) b.
Proof.
  intros I E. apply index_of_In in I. destruct b as [[ops s'] g']. intros T. pose proof T as (Sh & V & K).
  assert (So : stores [o] = []) by (apply stores_none; intros x [<-|[]]; auto). rewrite So. revert T.
  change (emits [] ([], s, g) (ops, s', g')). unfold from_stack in E. apply bind_ok in E as (tk & TK & E). destruct tk as [r|].
  - injection E as ->. eapply take_emits; exact TK.
  - apply bind_ok in E as (g1 & G & E). injection E as <- <- <-. apply (emits_plain [] s g [_]); [intros ? [<-|[]]; apply write_dup| |].
    + apply less_with_dup. destruct (needs g o); [eapply less_use_one|eapply less_use_term]; exact G.
    + intros _ _ x [<-|Hx]; auto.
Qed.

Lemma compute_all_emits one : one_emits one -> forall os s g b, compute_all one os s g = Ok b -> emits (stores os) ([], s, g) b.
Proof.
  intros O os s g b E. replace (stores os) with (flat_map (fun o => stores [o]) os).
  2: { apply stores_flat. }
  eapply emits_each; [|exact E]. cbv beta. intros [[ops s0] g0] x [[ops1 s1] g1] _ F. apply bind_ok in F as ([[n1 s2] g2] & F & F').
  injection F' as <- <- <-. apply emits_after. apply O. exact F.
Qed.
Lemma compute_term_emits one P solved : one_emits one -> one_emits (compute_term one P solved).
Proof.
  intros O o s g b E. unfold compute_term in E. apply bind_ok in E as (u & _ & E). apply bind_ok in E as (j & J & E). apply of_option_ok in J.
  destruct b as [[ops' s'] g']. intros T. pose proof T as (Sh & V & K).
  assert (X : In j (g_tbl g) /\ stores [i_id j] = stores [o]).
  { destruct (is_write o) eqn:Wo.
    - apply opid_instr_some in J as [Hj <-]. auto.
    - split; [eapply var_instr_some; exact J|]. unfold stores. cbn. rewrite (var_no_store _ _ _ Sh J), value_store by exact Wo. reflexivity. }
  destruct X as [Hj Sj]. pose proof (shape_outs _ _ Sh Hj) as VO. pose proof (shape_ins _ _ Sh Hj) as VI.
  destruct (both_on_top _ _ _ _ _ _).
  { destruct s as [|x [|y rest]]; try discriminate. injection E as <- <- <-. exists [(i_disasm j, i_id j)]. split; [reflexivity|].
    split; [exact Sj|]. eapply tame_less; [exact T| |].
    - apply less_with_dup. eapply less_trans; apply less_forget.
    - apply values_app; [exact VO|]. intros z Hz. apply V. right. right. exact Hz. }
  destruct (first_on_top _ _ _ _ _ _).
  { destruct (i_inpt j) as [|a [|c [|]]] eqn:In_; try discriminate. destruct s as [|x rest]; [discriminate|].
    apply bind_ok in E as ([[o1 s1] g1] & F & E). injection E as <- <- <-. apply O in F.
    assert (T1 : tame (x :: rest) (bump (forget_extra P x (x :: rest) g))) by (eapply tame_less; [exact T|apply less_with_dup, less_forget|exact V]).
    destruct (F T1) as (l & El & Sl & T2). cbn in El. subst l. exists (o1 ++ [(i_disasm j, i_id j)]). split; [reflexivity|].
    assert (Sc : stores [c] = []) by (apply stores_none; intros z [<-|[]]; apply VI; right; left; reflexivity).
    split; [rewrite map_app, stores_app, Sl, Sc; exact Sj|]. destruct T2 as (A & B & C). split; [exact A|]. split; [|exact C].
    apply values_app; [exact VO|exact (skipn_values 2 _ B)]. }
  apply bind_ok in E as (rv & _ & E). set (inpts1 := if rv then rev (i_inpt j) else i_inpt j) in *.
  apply bind_ok in E as ([[o1 s1] g1] & F & E). apply bind_ok in E as (u1 & _ & E). apply bind_ok in E as (u2 & _ & E). injection E as <- <- <-.
  apply (compute_all_emits one O) in F. destruct (F T) as (l & El & Sl & (A & B & C)). cbn in El. subst l.
  assert (Si : stores inpts1 = []).
  { apply stores_none. intros z Hz. apply VI. unfold inpts1 in Hz. destruct rv; [apply in_rev|]; exact Hz. }
  exists (o1 ++ [(i_disasm j, i_id j)]). split; [reflexivity|]. split; [rewrite map_app, stores_app, Sl, Si; exact Sj|].
  split; [exact A|]. split; [|exact C]. apply values_app; [exact VO|apply skipn_values; exact B].
Qed.
Lemma compute_one_emits P solved : forall fuel, one_emits (compute_one fuel P solved).
Proof.
  induction fuel as [|f IH]; intros o s g b E; [discriminate|]. cbn [compute_one] in E.
  destruct (if small_zeroary P (g_tbl g) o && negb (mem o (g_done g)) then var_instr (g_tbl g) o else None) as [i|] eqn:Z.
  { destruct (_ && _) in Z; [|discriminate]. eapply push_zeroary_emits; eauto. }
  apply bind_ok in E as (g1 & G & E).
  assert (L : less g g1).
  { destruct (_ && _ && _) in G; [|injection G as <-; apply less_refl]. apply bind_ok in G as ([[co cs] cg] & Cl & G). injection G as <-.
    cbn [snd]. eapply clean_stack_less; exact Cl. }
  assert (Q : emits (stores [o]) ([], s, g1) b -> emits (stores [o]) ([], s, g) b).
  { destruct b as [[ops s'] g']. intros A T. apply A. eapply tame_less; [exact T|exact L|apply T]. }
  apply Q. clear Q L G Z g. destruct (needs g1 o && _) eqn:Nd.
  - apply bind_ok in E as (g2 & G & E). injection E as <-. apply andb_true_iff in Nd as [Nd _]. unfold needs in Nd.
    destruct (need g1 o) eqn:Ne; [|discriminate]. apply lookup_key in Ne. intros T. pose proof T as (Sh & V & K).
    assert (So : stores [o] = []) by (apply stores_none; intros x [<-|[]]; auto). rewrite So. revert T.
    change (emits [] ([], s, g1) ([] ++ [same (vget_id o)], o :: s, bump g2)). apply emits_plain; [intros ? [<-|[]]; apply write_vget| |].
    + apply less_with_dup. eapply less_use_one; exact G.
    + intros _ _ x [<-|Hx]; auto.
  - destruct (index_of o s) as [idx|] eqn:I.
    + destruct (idx <? g_reach P)%nat; [eapply from_stack_emits; eauto|eapply compute_term_emits; eauto].
    + eapply compute_term_emits; eauto.
Qed.

(** ** The values computed beforehand *)
Context (P : setup) (FD : forall k l, In (k, l) (g_func_deps P) -> values l).
Definition keys_value (g : gstate) : Prop := values (map fst (g_need g)).
Lemma pre_list_tame : forall fuel o cs a b, pre_compute_list fuel P o cs a = Ok b -> g_tbl (snd b) = g_tbl (snd a) /\ (keys_value (snd a) -> keys_value (snd b)).
Proof.
  assert (Each : forall A (f : (list string * gstate) -> A -> result (list string * gstate)) xs,
    (forall c x d, In x xs -> f c x = Ok d -> g_tbl (snd d) = g_tbl (snd c) /\ (keys_value (snd c) -> keys_value (snd d))) ->
    forall c d, for_each f xs c = Ok d -> g_tbl (snd d) = g_tbl (snd c) /\ (keys_value (snd c) -> keys_value (snd d))).
  { intros A f xs. induction xs as [|x xs IH]; cbn [for_each]; intros F c d E; [injection E as <-; auto|].
    apply bind_ok in E as (c1 & E1 & E). destruct (F _ _ _ (or_introl eq_refl) E1) as [A1 B1].
    destruct (IH (fun c x d H => F c x d (or_intror H)) _ _ E) as [A2 B2]. split; [congruence|auto]. }
  induction fuel as [|f IH]; intros o cs a b E; [discriminate|]. cbn [pre_compute_list] in E.
  destruct (mem o cs); [injection E as <-; auto|]. apply bind_ok in E as (u & _ & E).
  destruct (mem o (fst a)); [injection E as <-; auto|]. apply bind_ok in E as (i & _ & E).
  apply bind_ok in E as (a1 & E1 & E). apply bind_ok in E as (a2 & E2 & E).
  assert (Q1 : g_tbl (snd a1) = g_tbl (snd a) /\ (keys_value (snd a) -> keys_value (snd a1))).
  { eapply Each; [|exact E1]. intros c x d _ F. exact (IH _ _ _ _ F). }
  assert (Q2 : g_tbl (snd a2) = g_tbl (snd a1) /\ (keys_value (snd a1) -> keys_value (snd a2))).
  { destruct (UtilModel.lookup o (g_func_deps P)) as [ops|] eqn:LK; [|injection E2 as <-; auto]. apply UtilProps.lookup_In in LK.
    eapply Each; [|exact E2]. cbv beta. intros c x d Hx F. destruct (mem x (g_done (snd c))); [injection F as <-; auto|].
    apply IH in F. cbn [snd] in F. destruct (_ && _) in F; [|exact F]. destruct F as [F1 F2]. split; [exact F1|]. intros Kc. apply F2.
    unfold keys_value. cbn. intros y Hy. apply keys_set in Hy as [->|Hy]; [apply (FD _ _ LK _ Hx)|auto]. }
  destruct a2 as [lord g2]. cbn [snd] in *. destruct (_ && _) in E; injection E as <-; cbn [snd]; split; try tauto; destruct Q1, Q2; congruence.
Qed.

Lemma compute_pre_one_emits fuel solved o a b : compute_pre_one fuel P solved a o = Ok b -> emits [] a b.
Proof.
  destruct a as [[ops cs] g], b as [[ops' cs'] g']. unfold compute_pre_one. intros E.
  apply bind_ok in E as ([[co c1] g1] & E1 & E). apply bind_ok in E as (j & J & E). apply of_option_ok in J.
  apply bind_ok in E as (rv & _ & E). apply bind_ok in E as ([[po c2] g2] & E2 & E). apply bind_ok in E as (u & _ & E).
  injection E as <- <- <-. intros T. apply clean_stack_emits in E1. destruct (E1 T) as (l & El & Sl & T1). cbn in El. subst l.
  set (inpts1 := if rv then rev (i_inpt j) else i_inpt j) in *. set (tbl1 := if rv then map (reverse_inputs o) (g_tbl g1) else g_tbl g1) in *.
  pose proof T1 as (Sh & V & K). pose proof (var_instr_some _ _ _ J) as [Hj _].
  pose proof (shape_outs _ _ Sh Hj) as VO. pose proof (shape_ins _ _ Sh Hj) as VI. pose proof (var_no_store _ _ _ Sh J) as NS.
  assert (Sh1 : shape tbl1) by (unfold tbl1; destruct rv; [apply shape_reverse|]; exact Sh).
  apply (compute_all_emits _ (compute_one_emits P solved fuel)) in E2.
  destruct E2 as (l & El & Sl2 & (A & B & C)); [split; [exact Sh1|split; [exact V|exact K]]|]. cbn in El. subst l.
  assert (Si : stores inpts1 = []).
  { apply stores_none. intros z Hz. apply VI. unfold inpts1 in Hz. destruct rv; [apply in_rev|]; exact Hz. }
  exists (co ++ po ++ [(i_disasm j, i_id j)]). split; [reflexivity|].
  split; [rewrite !map_app, !stores_app, Sl, Sl2, Si; unfold stores; cbn; rewrite NS; reflexivity|].
  apply (tame_less (i_outpt j ++ skipn (length (rev inpts1)) c2) (with_tbl (map (reverse_inputs o) (g_tbl g2)) g2)); [|apply less_settle|].
  - split; [apply shape_reverse; exact A|]. split; [|exact C]. apply values_app; [exact VO|apply skipn_values; exact B].
  - apply values_app; [exact VO|apply skipn_values; exact B].
Qed.
Lemma compute_pre_list_emits fuel solved lord cs g b : compute_pre_list fuel P solved lord cs g = Ok b -> emits [] ([], cs, g) b.
Proof.
  intros E. replace (@nil string) with (flat_map (fun _ : string => @nil string) lord) at 1 by (clear; induction lord; auto).
  eapply emits_each; [|exact E]. intros a x c _ F. eapply compute_pre_one_emits; exact F.
Qed.
Lemma compute_last_emits fuel solved o a b : compute_last fuel P solved o a = Ok b -> emits (stores [o]) a b.
Proof.
  destruct a as [[ops cs] g], b as [[ops' cs'] g']. unfold compute_last. intros E.
  apply bind_ok in E as ([[co c1] g1] & E1 & E). apply bind_ok in E as ([[po c2] g2] & E2 & E). injection E as <- <- <-.
  apply emits_after. apply (emits_trans [] (stores [o]) _ (co, c1, g1)); [eapply clean_stack_emits; exact E1|]. apply emits_after.
  apply compute_one_emits in E2. intros T. destruct (E2 T) as (l & El & Sl & T2). exists l. split; [exact El|]. split; [exact Sl|].
  eapply tame_less; [exact T2|apply less_settle|apply T2].
Qed.
Lemma pre_emits e fuel o cs g lord g1 b : pre_compute_list fuel P o cs ([], g) = Ok (lord, g1) -> emits e ([], cs, g1) b -> emits e ([], cs, g) b.
Proof.
  intros E A. apply pre_list_tame in E as [Q1 Q2]. cbn [snd] in *. destruct b as [[ops s'] g']. intros (Sh & V & K). apply A.
  split; [rewrite Q1; exact Sh|]. split; [exact V|apply Q2; exact K].
Qed.
Lemma compute_memory_op_emits fuel solved o cs g b : compute_memory_op fuel P solved o cs g = Ok b -> emits (stores [o]) ([], cs, g) b.
Proof.
  unfold compute_memory_op. intros E. apply bind_ok in E as ([lord g1] & E1 & E). apply bind_ok in E as (a & E2 & E).
  apply compute_pre_list_emits in E2. eapply pre_emits; [exact E1|]. destruct (is_write o) eqn:Wo; cbn [negb] in E.
  - apply (emits_trans [] (stores [o]) _ a); [exact E2|]. eapply compute_last_emits; exact E.
  - apply bind_ok in E as (l & _ & E). apply bind_ok in E as (u & _ & E). injection E as <-.
    replace (stores [o]) with (@nil string); [exact E2|]. symmetry. apply stores_none. intros x [<-|[]]. exact Wo.
Qed.
Lemma compute_regular_op_emits fuel solved o cs g b : is_write o = false -> compute_regular_op fuel P solved o cs g = Ok b -> emits [] ([], cs, g) b.
Proof.
  unfold compute_regular_op. intros Wo E. apply bind_ok in E as ([lord g1] & E1 & E). apply bind_ok in E as (a & E2 & E).
  apply compute_pre_list_emits in E2. eapply pre_emits; [exact E1|]. destruct (mem o lord); [injection E as <-; exact E2|].
  apply (emits_trans [] [] _ a); [exact E2|]. apply compute_last_emits in E. unfold stores in E. cbn in E. rewrite value_store in E by exact Wo. exact E.
Qed.
Lemma run_memory_emits fuel solved ms cs g b : run_memory fuel P solved ms cs g = Ok b -> emits (stores ms) ([], cs, g) b.
Proof.
  intros E. rewrite <- stores_flat. eapply emits_each; [|exact E]. intros [[o s] g0] m [[o2 s2] g2] _ F. cbv beta iota in F.
  apply bind_ok in F as ([[o1 s1] g1] & F & F'). injection F' as <- <- <-. apply emits_after. apply (emits_dup _ [] s g0 0).
  eapply compute_memory_op_emits; exact F.
Qed.
Lemma pop_unneeded_emits solved g g0 : forall s, emits [] ([], s, g0) (fst (pop_unneeded P solved g s), snd (pop_unneeded P solved g s), g0).
Proof.
  induction s as [|x s IH]; cbn [pop_unneeded]; [apply emits_refl|]. destruct (_ && _ && _); [|apply emits_refl].
  cbn [fst snd]. intros T. assert (T1 : tame s g0) by (eapply tame_less; [exact T|apply less_refl|]; intros y Hy; destruct T as (_ & V & _); apply V; right; exact Hy).
  destruct (IH T1) as (l & El & Sl & T2). cbn in El. exists (same "POP" :: l). split; [cbn; rewrite El; reflexivity|].
  split; [|exact T2]. cbn [map snd same]. unfold stores in *. cbn [filter]. rewrite (value_store "POP") by reflexivity. exact Sl.
Qed.

(** ** The loop *)
Context (VF : values (g_final P)).
(** The stores still pending after a step are those before it without those emitted. *)
Definition consumes (l l' : lstate) : Prop :=
  exists e, stores (l_instr l) = e ++ stores (l_instr l') /\ emits e (view l) (view l').
Lemma consumes_refl l l' : l_instr l' = l_instr l -> emits [] (view l) (view l') -> consumes l l'.
Proof. intros E A. exists []. rewrite E. auto. Qed.
Lemma consumes_trans a b c : consumes a b -> consumes b c -> consumes a c.
Proof. intros (e & E & A) (f & F & B). exists (e ++ f). split; [rewrite E, F, app_assoc; reflexivity|]. eapply emits_trans; eauto. Qed.
Lemma emits_swap ops s g pos s' : swap_top s pos = Ok s' -> emits [] (ops, s, g) (ops ++ [same (swap_name pos)], s', g).
Proof.
  intros E. apply emits_plain; [intros ? [<-|[]]; apply write_swap|apply less_refl|]. intros V _ x Hx. apply V. eapply swap_top_In; eauto.
Qed.
Lemma do_place_consumes posc l l' : do_place P posc l = Ok l' -> consumes l l'.
Proof.
  unfold do_place. intros E. apply bind_ok in E as (top & _ & E). apply bind_ok in E as (x & _ & E). destruct (String.eqb top x).
  - apply bind_ok in E as (u & _ & E). injection E as <-. apply consumes_refl; [reflexivity|apply emits_refl].
  - apply bind_ok in E as (u & U & E). apply bind_ok in E as (s1 & SW & E). apply bind_ok in E as (u1 & _ & E). injection E as <-.
    apply consumes_refl; [reflexivity|]. apply emits_swap. exact SW.
Qed.
Lemma before_value_emits fuel o l out rest ns b : is_write o = false -> before_value fuel P o l = Ok (out, rest, ns, b) ->
  exists e, stores (l_instr l) = e ++ stores rest /\ emits e ([], l_stack l, l_g l) out.
Proof.
  unfold before_value. intros Wo E. apply bind_ok in E as (i & I & E). apply bind_ok in E as (j & _ & E).
  assert (G : forall plan, (do plan <- plan; let '(p, instr, nostore, before_store) := plan in
      do out <- run_memory fuel P (l_solved l) (firstn p instr) (l_stack l) (l_g l);
      let rest := skipn p instr in Ok (out, rest, match rest with [] => [] | _ => nostore end, before_store)) = Ok (out, rest, ns, b) ->
    (forall p instr n s, plan = Ok (p, instr, n, s) -> stores instr = stores (l_instr l)) ->
    exists e, stores (l_instr l) = e ++ stores rest /\ emits e ([], l_stack l, l_g l) out).
  { clear E. intros plan E Hp. apply bind_ok in E as ([[[p ins] n] s] & Ep & E). apply bind_ok in E as (o1 & E1 & E). injection E as -> <- _ _.
    specialize (Hp _ _ _ _ Ep). apply run_memory_emits in E1. exists (stores (firstn p ins)). split; [|exact E1].
    rewrite <- Hp, <- stores_app, firstn_skipn. reflexivity. }
  destruct i as [k|].
  - apply G in E; [exact E|]. clear G E. intros p ins n s E. destruct j as [q|].
    + injection E as _ <- _ _. reflexivity.
    + apply bind_ok in E as (m' & M & E). apply of_option_ok in M. destruct (String.eqb_spec m' o) as [->|]; injection E as _ <- _ _; [|reflexivity].
      apply nth_error_split in M as (a & c & Eq & <-). rewrite Eq, firstn_app, firstn_all, Nat.sub_diag. cbn [firstn]. rewrite app_nil_r.
      assert (SK : match a ++ o :: c with [] => [] | _ :: l0 => skipn (length a) l0 end = c).
      { change (skipn (S (length a)) (a ++ o :: c) = c). rewrite skipn_app, skipn_all2 by lia. cbn [app].
        replace (S (length a) - length a)%nat with 1%nat by lia. reflexivity. }
      rewrite SK, !stores_app. unfold stores at 4. cbn [filter]. rewrite value_store by exact Wo. reflexivity.
  - destruct j as [q|].
    + apply G in E; [exact E|]. intros p ins n s E'. injection E' as _ <- _ _. reflexivity.
    + injection E as <- <- _ _. exists []. split; [reflexivity|apply emits_refl].
Qed.
Lemma do_build_consumes fuel pos l l' : do_build fuel P pos l = Ok l' -> consumes l l'.
Proof.
  unfold do_build. intros E. apply bind_ok in E as (o & O & E). apply of_option_ok in O. apply nth_error_In in O. pose proof (VF _ O) as Wo.
  apply bind_ok in E as ([[[out rest] ns] bs] & E1 & E). destruct (before_value_emits _ _ _ _ _ _ _ Wo E1) as (e & Ee & A1). clear E1.
  destruct out as [[o1 s1] g1]. apply bind_ok in E as ([[o2 s2] g2] & E2 & E).
  assert (A3 : emits [] ([], s1, g1) (o2, s2, g2)).
  { apply (emits_dup _ [] s1 g1 0). destruct bs; [|eapply compute_regular_op_emits; eauto].
    apply compute_memory_op_emits in E2. unfold stores in E2. cbn in E2. rewrite value_store in E2 by exact Wo. exact E2. }
  apply bind_ok in E as (g3 & E3 & E).
  assert (A4 : emits [] (o2, s2, g2) (o2, s2, g3)).
  { destruct (_ && _) in E3; [|injection E3 as <-; apply emits_refl]. apply bind_ok in E3 as (t & TT & E3). injection E3 as <-.
    apply of_option_ok, nth_error_In in TT. intros (Sh & V & K). exists []. rewrite app_nil_r. split; [reflexivity|]. split; [reflexivity|].
    split; [exact Sh|]. split; [exact V|]. cbn. intros x Hx. apply keys_set in Hx as [->|Hx]; auto. }
  assert (A : emits e (l_ops l, l_stack l, l_g l) (l_ops l ++ o1 ++ o2, s2, g3)).
  { apply emits_after. rewrite <- (app_nil_r e). apply (emits_trans e [] _ (o1, s1, g1)); [exact A1|]. apply emits_after.
    exact (emits_trans [] [] _ _ _ A3 A4). }
  destruct (_ && _) eqn:C in E.
  - apply bind_ok in E as (s3 & SW & E). apply bind_ok in E as (u & _ & E). injection E as <-. exists e. split; [exact Ee|].
    unfold view. cbn [l_ops l_stack l_g]. rewrite <- (app_nil_r e). eapply emits_trans; [exact A|].
    rewrite !app_assoc. rewrite <- (app_assoc (l_ops l)). apply emits_swap. exact SW.
  - injection E as <-. exists e. split; [exact Ee|exact A].
Qed.
Lemma do_memory_consumes fuel l l' : do_memory fuel P l = Ok l' -> consumes l l'.
Proof.
  unfold do_memory, consumes. intros E. destruct (l_instr l) as [|o ins]; [discriminate|].
  apply bind_ok in E as ([[o1 s1] g1] & E1 & E). apply bind_ok in E as (u & _ & E). injection E as <-. cbn [l_instr].
  exists (stores [o]). split; [exact (stores_app [o] ins)|].
  apply emits_after. apply (emits_dup _ [] (l_stack l) (l_g l) 0). eapply compute_memory_op_emits. exact E1.
Qed.
Lemma do_finish_consumes fuel l l' : do_finish fuel P l = Ok l' -> consumes l l' /\ l_instr l' = [].
Proof.
  unfold do_finish. intros E. apply bind_ok in E as (u & _ & E). apply bind_ok in E as ([[o1 s1] g1] & E1 & E). injection E as <-. cbn [l_instr].
  split; [|reflexivity]. exists (stores (l_instr l)). split; [cbn; rewrite app_nil_r; reflexivity|]. rewrite <- stores_flat.
  eapply emits_each; [|exact E1]. intros [[o s] g] m [[o3 s3] g3] _ F. cbv beta iota in F.
  apply bind_ok in F as ([[o2 s2] g2] & F & F'). injection F' as <- <- <-. apply compute_memory_op_emits in F.
  apply emits_after. rewrite <- (app_nil_r (stores [m])). apply (emits_trans _ [] _ (o2, s2, g2)); [apply (emits_dup _ [] s g 0); exact F|].
  apply emits_after. apply pop_unneeded_emits.
Qed.
Lemma search_step_consumes fuel l l' b : search_step fuel P l = Ok (l', b) -> consumes l l' /\ (b = true -> l_instr l' = []).
Proof.
  unfold search_step. intros E. set (r := pop_unneeded P (l_solved l) (l_g l) (l_stack l)) in *.
  set (l1 := {| l_ops := _; l_stack := _; l_solved := _; l_instr := _; l_nostore := _; l_g := _ |}) in E.
  assert (A : consumes l l1). { apply consumes_refl; [reflexivity|]. apply emits_after, pop_unneeded_emits. }
  apply bind_ok in E as (st & _ & E). apply bind_ok in E as ([l2 stop] & E2 & E). injection E as <- <-.
  assert (G : consumes l1 l2 /\ (stop = true -> l_instr l2 = [])).
  { destruct st.
    - apply bind_ok in E2 as (l3 & E3 & E2). injection E2 as <- <-. split; [eapply do_memory_consumes; eauto|discriminate].
    - apply bind_ok in E2 as (c & _ & E2). destruct c as [posc|pos|]; apply bind_ok in E2 as (l3 & E3 & E2); injection E2 as <- <-.
      + split; [eapply do_place_consumes; eauto|discriminate].
      + split; [eapply do_build_consumes; eauto|discriminate].
      + apply do_finish_consumes in E3 as [G1 G2]. auto. }
  destruct G as [G1 G2]. cbn [l_instr]. split; [|exact G2]. eapply consumes_trans; [exact A|]. exact G1.
Qed.
Lemma search_loop_consumes fuel : forall n l l', search_loop n fuel P l = Ok l' -> emits (stores (l_instr l)) (view l) (view l').
Proof.
  assert (Q : forall n l l', search_loop n fuel P l = Ok l' -> consumes l l' /\ l_instr l' = []).
  { induction n as [|n IH]; cbn [search_loop]; intros l l' E; [discriminate|].
    apply bind_ok in E as ([l1 b] & E1 & E). cbn [fst snd] in E. destruct (search_step_consumes _ _ _ _ E1) as [A B].
    destruct b; [injection E as <-; auto|]. destruct (IH _ _ E) as [C D]. split; [eapply consumes_trans; eauto|exact D]. }
  intros n l l' E. destruct (Q _ _ _ E) as [(e & Ee & A) D]. rewrite D in Ee. cbn in Ee. rewrite app_nil_r in Ee. rewrite Ee. exact A.
Qed.
Lemma precompute_loop_emits : forall fuel s ops g b, precompute_loop fuel P s ops g = Ok b -> emits [] (ops, s, g) b.
Proof.
  induction fuel as [|f IH]; intros [|top rest] ops g b E; cbn [precompute_loop] in E; try discriminate;
    try (injection E as <-; apply emits_refl).
  destruct (match need g top with None => true | Some n => n =? 0 end).
  - apply IH in E. eapply (emits_trans [] []); [|exact E]. apply emits_plain; [intros ? [<-|[]]; reflexivity|apply less_drop|].
    intros V _ x Hx. apply V. right. exact Hx.
  - destruct (home _ _ _) as [pos|]; [|injection E as <-; apply emits_refl]. apply bind_ok in E as (u & U & E).
    destruct (_ || _) eqn:C in E; [injection E as <-; apply emits_refl|]. apply bind_ok in E as (x & _ & E).
    destruct (String.eqb x top); [injection E as <-; apply emits_refl|]. apply bind_ok in E as (s1 & SW & E).
    apply IH in E. eapply (emits_trans [] []); [|exact E]. apply emits_swap; exact SW.
Qed.
Lemma already_solved_less : forall rs rf j solved g r, already_solved rs rf j solved g = Ok r -> less g (snd r).
Proof.
  induction rs as [|x rs IH]; intros [|y rf] j solved g r E; cbn [already_solved] in E; try (injection E as <-; apply less_refl).
  destruct (String.eqb x y); [|eapply IH; eauto]. apply bind_ok in E as (g1 & G & E). apply IH in E. eapply less_trans; [|exact E].
  destruct (need g x) as [n|] eqn:Nx; [|injection G as <-; apply less_refl]. apply bind_ok in G as (u & _ & G). injection G as <-.
  destruct (n =? 1); [apply less_drop|eapply less_set; eauto].
Qed.
Lemma act_value R s a s' : PermutProps.act R s a s' -> is_write a = false.
Proof. intros H. destruct H; reflexivity. Qed.

(** The stores of the sequence are those pending, in that order. *)
Lemma search_emits fuel pending nostore g ops tbl : search fuel P pending nostore g = Ok (ops, tbl) ->
  tame (g_initial P) g -> (forall z, In (swap_name z) (map snd ops) -> 1 <= z) ->
  stores (map snd ops) = stores pending /\ shape tbl.
Proof.
  unfold search, precompute, compute. intros E T Hz. apply bind_ok in E as ([[[ini s0] g0] solved] & E0 & E).
  apply bind_ok in E0 as ([[o1 s1] g1] & E1 & E0). apply bind_ok in E0 as (sv & E2 & E0). injection E0 as <- <- <- <-.
  apply bind_ok in E as (l & E3 & E). apply bind_ok in E as (pids & E4 & E). injection E as <- <-.
  apply precompute_loop_emits in E1. apply already_solved_less in E2. apply search_loop_consumes in E3.
  destruct (E1 T) as (a & Ea & R1 & T1). cbn in Ea. subst a.
  unfold view in E3. cbn [l_ops l_stack l_g l_instr] in E3. destruct E3 as (b & Eb & R2 & T2); [eapply tame_less; [exact T1|exact E2|apply T1]|].
  cbn in Eb. subst b. split; [|apply T2]. rewrite !map_app, !stores_app, R1, R2. cbn [app].
  assert (Q : stores (map snd (map same pids)) = []); [|rewrite Q, app_nil_r; reflexivity].
  unfold compute_permut_and_clean in E4. apply PermutProps.permut_loop_emits in E4 as (pl & -> & H); [|cbn; lia]. cbn [p_ids p_c p_reg app] in *.
  assert (A : PermutProps.acts (Z.of_nat (g_reach P)) (l_stack l, []) pl (g_final P, [])).
  { apply H. intros z Hi. apply Hz. rewrite !map_app, !in_app_iff. right. right. rewrite map_map. rewrite map_id. exact Hi. }
  rewrite map_map, map_id. apply stores_none. clear -A. induction A as [|s x s' l0 s'' B _ IH]; [intros y []|].
  intros y [<-|Hy]; [eapply act_value; exact B|auto].
Qed.
End Order.
