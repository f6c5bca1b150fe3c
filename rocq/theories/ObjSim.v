(** Simulations between deterministic step functions, and objects that have the
    same code. *)
From Verif Require Import Base Lexical UtilModel LiveModel CfgModel JumpModel ObjSem.
Open Scope string_scope. Open Scope list_scope.

Fixpoint iter {A} (f : A -> option A) (n : nat) (a : A) : option A :=
  match n with O => Some a | S n' => match f a with Some b => iter f n' b | None => None end end.
Lemma iter_app {A} (f : A -> option A) : forall n m a, iter f (n + m) a = match iter f n a with Some b => iter f m b | None => None end.
Proof. induction n as [|n IH]; intros m a; [reflexivity|]. cbn [iter plus]. destruct (f a); [apply IH|reflexivity]. Qed.
Lemma iter_prefix {A} (f : A -> option A) n m a b : iter f (n + m) a = Some b -> exists c, iter f n a = Some c /\ iter f m c = Some b.
Proof. rewrite iter_app. destruct (iter f n a) as [c|]; [eauto|discriminate]. Qed.
Lemma iter_le {A} (f : A -> option A) n m a b : n <= m -> iter f m a = Some b -> exists c, iter f n a = Some c.
Proof. intros H I. replace m with (n + (m - n)) in I by lia. apply iter_prefix in I as (c & Q & _). eauto. Qed.

(** Every step of the source is some steps of the target; when it is none, a
    measure decreases. *)
Section Simulation.
Context {A B : Type}.
Variable f : A -> option A.
Variable g : B -> option B.
Variable R : A -> B -> Prop.
Variable measure : A -> nat.
Hypothesis step : forall a a' b, R a b -> f a = Some a' -> exists m b', iter g m b = Some b' /\ R a' b' /\ (m = 0 -> measure a' < measure a).

Lemma sim_reach : forall n a a' b, R a b -> iter f n a = Some a' -> exists m b', iter g m b = Some b' /\ R a' b'.
Proof.
  induction n as [|n IH]; intros a a' b H I; cbn [iter] in I.
  - injection I as <-. exists 0, b. auto.
  - destruct (f a) as [a1|] eqn:F; [|discriminate]. destruct (step a a1 b H F) as (m & b1 & G & H1 & _). destruct (IH a1 a' b1 H1 I) as (m' & b' & G' & H').
    exists (m + m'), b'. split; [rewrite iter_app, G; exact G'|exact H'].
Qed.
Lemma sim_forever : forall a b, R a b -> (forall n, exists a', iter f n a = Some a') -> forall n, exists m b', n <= m /\ iter g m b = Some b'.
Proof.
  assert (P : forall k a b, measure a <= k -> R a b -> (forall n, exists a', iter f n a = Some a') ->
    exists m a' b', 1 <= m /\ iter g m b = Some b' /\ R a' b' /\ (forall n, exists a'', iter f n a' = Some a'')).
  { induction k as [|k IH]; intros a b K H I.
    - destruct (I 1) as (a1 & Q). cbn in Q. destruct (f a) as [a2|] eqn:F; [|discriminate]. destruct (step a a2 b H F) as (m & b' & G & H' & M).
      exists m, a2, b'. split; [destruct m; [specialize (M eq_refl); lia|lia]|]. split; [exact G|]. split; [exact H'|]. intros n. destruct (I (S n)) as (c & C). cbn in C. rewrite F in C. eauto.
    - destruct (I 1) as (a1 & Q). cbn in Q. destruct (f a) as [a2|] eqn:F; [|discriminate]. destruct (step a a2 b H F) as (m & b' & G & H' & M).
      assert (I2 : forall n, exists a', iter f n a2 = Some a') by (intros n; destruct (I (S n)) as (c & C); cbn in C; rewrite F in C; eauto).
      destruct m as [|m].
      + cbn in G. injection G as <-. apply (IH a2 b); [specialize (M eq_refl); lia|exact H'|exact I2].
      + exists (S m), a2, b'. split; [lia|]. auto. }
  intros a b H I n. revert a b H I. induction n as [|n IH]; intros a b H I.
  - exists 0, b. split; [lia|reflexivity].
  - destruct (P (measure a) a b (Nat.le_refl _) H I) as (m & a' & b' & M & G & H' & I'). destruct (IH a' b' H' I') as (m' & b'' & M' & G').
    exists (m + m'), b''. split; [lia|]. rewrite iter_app, G. exact G'.
Qed.
End Simulation.

Section Objects.
Context {V W : Type}.
Variable M : words V W.
Lemma osteps_iter ob : forall n s, osteps M n ob s = iter (ostep M ob) n s.
Proof. induction n as [|n IH]; intros s; [reflexivity|]. cbn [osteps iter]. destruct (ostep M ob s); [apply IH|reflexivity]. Qed.

(** A simulation between two objects keeps what they do. *)
Lemma simulated ob ob' (R : state V W -> state V W -> Prop) measure :
  (forall s s' t, R s t -> ostep M ob s = Some s' -> exists m t', iter (ostep M ob') m t = Some t' /\ R s' t' /\ (m = 0 -> measure s' < measure s)) ->
  (forall op args w t, R (Done op args w) t -> exists n, iter (ostep M ob') n t = Some (Done op args w)) ->
  (forall w s, begins_at M ob w = Some s -> exists t, begins_at M ob' w = Some t /\ R s t) ->
  forall w, (forall op args w', stops M ob w op args w' -> stops M ob' w op args w') /\ (goes_on M ob w -> goes_on M ob' w).
Proof.
  intros ST DN BG w. split.
  - intros op args w' (s & n & B & I). rewrite osteps_iter in I. destruct (BG w s B) as (t & BT & H).
    destruct (sim_reach _ _ R measure ST n s _ t H I) as (m & t' & G & H'). destruct (DN op args w' t' H') as (k & D).
    exists t, (m + k). split; [exact BT|]. rewrite osteps_iter, iter_app, G. exact D.
  - intros (s & B & I). destruct (BG w s B) as (t & BT & H). exists t. split; [exact BT|]. intros n.
    assert (I' : forall k, exists s', iter (ostep M ob) k s = Some s') by (intros k; destruct (I k) as (c & b & r & e & w' & cs & Q); rewrite osteps_iter in Q; eauto).
    destruct (sim_forever _ _ R measure ST s t H I' (S n)) as (m & t' & LE & G). rewrite osteps_iter. destruct (iter_le _ (S n) m t t' LE G) as (t2 & G2).
    replace (S n) with (n + 1) in G2 by lia. apply iter_prefix in G2 as (t1 & G1 & G3). rewrite G1. destruct t1 as [c b r e w1 cs|]; [|discriminate]. exists c, b, r, e, w1, cs. reflexivity.
Qed.

(** Two objects that go along with each other step by step, up to some steps of
    the second one. *)
Definition orel {A B} (R : A -> B -> Prop) (o : option A) (o' : option B) : Prop :=
  match o, o' with Some a, Some b => R a b | None, None => True | _, _ => False end.
Definition ends (s : state V W) : option (string * list V * W) := match s with Done op args w => Some (op, args, w) | Doing _ _ _ _ _ _ => None end.
Lemma ends_done s op args w : ends s = Some (op, args, w) -> s = Done op args w.
Proof. destruct s; cbn; [discriminate|]. congruence. Qed.
Section Lockstep.
Variables (ob ob' : cobject) (R : state V W -> state V W -> Prop).
Notation f := (ostep M ob).
Notation g := (ostep M ob').
Hypothesis lock : forall s t, R s t -> exists m t', iter g m t = Some t' /\ ends s = ends t' /\ orel R (f s) (g t').
Lemma back_reach : forall n s t op args w, R s t -> iter g n t = Some (Done op args w) -> exists k, iter f k s = Some (Done op args w).
Proof.
  induction n as [n IH] using lt_wf_ind. intros s t op args w H I. destruct (lock s t H) as (m & t' & IM & EN & OR).
  destruct (f s) as [s1|] eqn:F; destruct (g t') as [t1|] eqn:G; cbn in OR; try contradiction.
  - assert (LE : m + 1 <= n).
    { destruct (le_lt_dec (m + 1) n) as [|L]; [assumption|exfalso]. assert (IT : iter g (m + 1) t = Some t1) by (rewrite iter_app, IM; cbn; rewrite G; reflexivity).
      replace (m + 1) with (n + S (m - n)) in IT by lia. rewrite iter_app, I in IT. discriminate. }
    replace n with ((m + 1) + (n - (m + 1))) in I by lia. rewrite iter_app, iter_app, IM in I. cbn [iter] in I. rewrite G in I.
    destruct (IH (n - (m + 1)) ltac:(lia) s1 t1 op args w OR I) as (k & K). exists (S k). cbn [iter]. rewrite F. exact K.
  - exists 0. cbn [iter]. f_equal. apply ends_done. rewrite EN. assert (Q : t' = Done op args w); [|subst; reflexivity].
    destruct (le_lt_dec m n) as [L|L].
    + replace n with (m + (n - m)) in I by lia. rewrite iter_app, IM in I. destruct (n - m); cbn [iter] in I; [congruence|]. rewrite G in I. discriminate.
    + replace m with (n + S (m - n - 1)) in IM by lia. rewrite iter_app, I in IM. discriminate.
Qed.
Lemma back_forever : forall s t, R s t -> (forall n, exists t', iter g n t = Some t') -> forall k, exists s', iter f k s = Some s'.
Proof.
  intros s t H I k. revert s t H I. induction k as [|k IH]; intros s t H I; [exists s; reflexivity|]. destruct (lock s t H) as (m & t' & IM & EN & OR).
  destruct (I (m + 1)) as (t2 & I2). rewrite iter_app, IM in I2. cbn [iter] in I2. destruct (g t') as [t1|] eqn:G; [|discriminate]. destruct (f s) as [s1|] eqn:F; cbn in OR; [|contradiction].
  cbn [iter]. rewrite F. apply (IH s1 t1 OR). intros n. destruct (I ((m + 1) + n)) as (t3 & I3). rewrite iter_app, iter_app, IM in I3. cbn [iter] in I3. rewrite G in I3. eauto.
Qed.
Lemma forth_step s s' t : R s t -> f s = Some s' -> exists m t', iter g m t = Some t' /\ R s' t' /\ (m = 0 -> 0 < 0).
Proof.
  intros H Q. destruct (lock s t H) as (m & t' & IM & EN & OR). rewrite Q in OR. destruct (g t') as [t1|] eqn:G; [|contradiction].
  exists (m + 1), t1. split; [rewrite iter_app, IM; cbn; rewrite G; reflexivity|]. split; [exact OR|lia].
Qed.
Lemma forth_done op args w t : R (Done op args w) t -> exists n, iter g n t = Some (Done op args w).
Proof. intros H. destruct (lock _ t H) as (m & t' & IM & EN & _). exists m. rewrite IM. f_equal. apply ends_done. now symmetry. Qed.
Lemma lockstep w : orel R (begins_at M ob w) (begins_at M ob' w) ->
  (forall op args w', stops M ob w op args w' <-> stops M ob' w op args w') /\ (goes_on M ob w <-> goes_on M ob' w).
Proof.
  intros B. assert (GO : forall ob1 s, (forall n, exists c b rest e w' calls, osteps M n ob1 s = Some (Doing c b rest e w' calls)) <-> forall n, exists s', iter (ostep M ob1) n s = Some s').
  { intros ob1 s. split.
    - intros I n. destruct (I n) as (c & b & r & e & w' & cs & Q). rewrite osteps_iter in Q. eauto.
    - intros I n. destruct (I (n + 1)) as (t2 & G2). apply iter_prefix in G2 as (t1 & G1 & G3). rewrite osteps_iter, G1. destruct t1 as [c b r e w1 cs|]; [|discriminate]. exists c, b, r, e, w1, cs. reflexivity. }
  unfold stops, goes_on. destruct (begins_at M ob w) as [s|], (begins_at M ob' w) as [t|]; cbn in B; try contradiction.
  - split; [intros op args w'; split|split].
    + intros (s0 & n & Q & I). injection Q as <-. rewrite osteps_iter in I. destruct (sim_reach _ _ R (fun _ => 0) forth_step n s _ t B I) as (m & t' & G & H'). destruct (forth_done op args w' t' H') as (k & D).
      exists t, (m + k). split; [reflexivity|]. rewrite osteps_iter, iter_app, G. exact D.
    + intros (t0 & n & Q & I). injection Q as <-. rewrite osteps_iter in I. destruct (back_reach n s t op args w' B I) as (k & K). exists s, k. split; [reflexivity|]. rewrite osteps_iter. exact K.
    + intros (s0 & Q & I). injection Q as <-. exists t. split; [reflexivity|]. apply GO. rewrite GO in I. intros n. destruct (sim_forever _ _ R (fun _ => 0) forth_step s t B I n) as (m & t' & LE & G).
      destruct (iter_le _ n m t t' LE G) as (t2 & G2). eauto.
    + intros (t0 & Q & I). injection Q as <-. exists s. split; [reflexivity|]. apply GO. rewrite GO in I. exact (back_forever s t B I).
  - split; [intros op args w'; split|split]; intros (s0 & x); destruct x as [n x]; try (destruct x as [x _]); discriminate.
Qed.
End Lockstep.
End Objects.
Lemma same_meaning_does ob ob' : same_meaning ob ob' -> does_the_same ob ob'.
Proof. intros H V W M w. destruct (H V W M w) as (A & B). split; [intros op args w'; apply A|apply B]. Qed.
Lemma same_meaning_undoes ob ob' : same_meaning ob ob' -> does_the_same ob' ob.
Proof. intros H V W M w. destruct (H V W M w) as (A & B). split; [intros op args w'; apply A|apply B]. Qed.
Lemma same_meaning_sym ob ob' : same_meaning ob ob' -> same_meaning ob' ob.
Proof. intros H V W M w. destruct (H V W M w) as (A & B). split; [intros op args w'; symmetry; apply A|symmetry; apply B]. Qed.
Lemma same_meaning_trans a b c : same_meaning a b -> same_meaning b c -> same_meaning a c.
Proof. intros H K V W M w. destruct (H V W M w) as (H1 & H2), (K V W M w) as (K1 & K2). split; [intros op args w'; rewrite H1; apply K1|rewrite H2; apply K2]. Qed.
Lemma same_meaning_refl a : same_meaning a a.
Proof. intros V W M w. split; reflexivity. Qed.

(** What the meaning of a block depends on. *)
Definition core (b : cblock) := (cb_instrs b, cb_type b, cb_jump_to b, cb_falls_to b, cb_cond b, cb_entries b).
Record same_code (ob ob' : cobject) : Prop := {
  sc_main : cl_start (ob_main ob') = cl_start (ob_main ob);
  sc_functions : forall f, option_map (fun k => (fn_args k, cl_start (fn_blocks k))) (lookup f (ob_functions ob'))
                         = option_map (fun k => (fn_args k, cl_start (fn_blocks k))) (lookup f (ob_functions ob));
  sc_blocks : forall c b, option_map core (block_at ob' c b) = option_map core (block_at ob c b)
}.
Lemma same_code_refl ob : same_code ob ob. Proof. split; reflexivity. Qed.
Lemma same_code_sym ob ob' : same_code ob ob' -> same_code ob' ob.
Proof. intros []. split; intros; now symmetry. Qed.
Lemma same_goto {V W} (M : words V W) ob ob' c from to e w calls : same_code ob ob' -> goto M ob' c from to e w calls = goto M ob c from to e w calls.
Proof.
  intros [_ _ B]. unfold goto. destruct to as [b|]; [|reflexivity]. specialize (B c b). destruct (block_at ob c b) as [x|], (block_at ob' c b) as [y|]; cbn in B; try discriminate; [|reflexivity].
  unfold core in B. injection B as I T J F C E. unfold arrive. now rewrite I, E.
Qed.
Lemma same_step {V W} (M : words V W) ob ob' s : same_code ob ob' -> ostep M ob' s = ostep M ob s.
Proof.
  intros H. destruct s as [c b rest e w calls|]; [|reflexivity]. cbn [ostep]. destruct rest as [|i rest].
  - pose proof (sc_blocks _ _ H c b) as B. destruct (block_at ob c b) as [x|], (block_at ob' c b) as [y|]; cbn in B; try discriminate; [|reflexivity].
    unfold core in B. injection B as I T J F C E. unfold next_block. rewrite T, J, F, C. destruct (String.eqb (cb_type x) "mainExit"); [reflexivity|]. apply same_goto, H.
  - destruct (values M e (li_ins i)) as [args|]; [|reflexivity]. pose proof (sc_functions _ _ H (li_op i)) as Q.
    destruct (lookup (li_op i) (ob_functions ob)) as [k|], (lookup (li_op i) (ob_functions ob')) as [k'|]; cbn in Q; try discriminate; [|reflexivity].
    injection Q as A S. rewrite A, S. destruct (Nat.eqb _ _); [|reflexivity]. apply same_goto, H.
Qed.
Lemma same_does ob ob' : same_code ob ob' -> does_the_same ob ob'.
Proof.
  intros H V W M w. apply (simulated M ob ob' eq (fun _ => 0)).
  - intros s s' t <- Q. exists 1, s'. split; [cbn; rewrite (same_step M ob ob' s H), Q; reflexivity|]. split; [reflexivity|lia].
  - intros op args w' t <-. exists 0. reflexivity.
  - intros w0 s B. exists s. split; [|reflexivity]. rewrite <- B. unfold begins_at. rewrite (sc_main _ _ H). apply same_goto, H.
Qed.
Lemma does_refl ob : does_the_same ob ob. Proof. intros V W M w. auto. Qed.
Lemma does_trans a b c : does_the_same a b -> does_the_same b c -> does_the_same a c.
Proof. intros H K V W M w. destruct (H V W M w) as (H1 & H2), (K V W M w) as (K1 & K2). auto. Qed.
