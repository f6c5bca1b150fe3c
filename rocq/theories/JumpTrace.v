(** Executions of graphs that differ only in the instructions of their blocks. *)
From Verif Require Import Base UtilModel UtilProps UnifyProps LiveModel CfgModel CfgSpec CfgProps CombineProps.
Open Scope string_scope. Open Scope list_scope.

Section Alike.
Variable E : event -> list event.
Hypothesis E1 : forall e, length (E e) <= 1.

Definition alike (g g' : clist) : Prop :=
  (forall t, (exists u, runs g u /\ flat_map E u = t) <-> (exists u, runs g' u /\ flat_map E u = t))
  /\ (forall t, (exists u, begins g u /\ flat_map E u = t) <-> (exists u, begins g' u /\ flat_map E u = t)).
Lemma alike_refl g : alike g g. Proof. split; reflexivity. Qed.
Lemma alike_trans g1 g2 g3 : alike g1 g2 -> alike g2 g3 -> alike g1 g3.
Proof. intros [A B] [C D]. split; intros t; [rewrite A; apply C|rewrite B; apply D]. Qed.
Lemma equivalent_alike g g' : equivalent g g' -> alike g g'.
Proof.
  intros [A B]. split; intros t; split; intros (u & R & F); exists u; (split; [|exact F]); try (apply A; exact R); apply B; exact R.
Qed.

Lemma flat_map_prefix : forall T a b, flat_map E T = a ++ b -> exists T1 T2, T = T1 ++ T2 /\ flat_map E T1 = a /\ flat_map E T2 = b.
Proof.
  induction T as [|e T IH]; intros a b H.
  - cbn in H. symmetry in H. apply app_eq_nil in H as (-> & ->). exists [], []. auto.
  - cbn [flat_map] in H. destruct a as [|x a].
    { exists [], (e :: T). split; [reflexivity|]. split; [reflexivity|exact H]. }
    specialize (E1 e). destruct (E e) as [|y [|z l]] eqn:Ee; [|cbn in H; injection H as <- H|cbn in E1; lia].
    + destruct (IH (x :: a) b H) as (T1 & T2 & -> & F1 & F2). exists (e :: T1), T2. split; [reflexivity|]. cbn [flat_map]. rewrite Ee. auto.
    + destruct (IH a b H) as (T1 & T2 & -> & F1 & F2). exists (e :: T1), T2. split; [reflexivity|]. cbn [flat_map]. rewrite Ee, F1. auto.
Qed.

(** The same links and the same instructions up to [E]. *)
Definition edited_block (b b' : cblock) : Prop :=
  cb_jump_to b' = cb_jump_to b /\ cb_falls_to b' = cb_falls_to b /\ cb_cond b' = cb_cond b
  /\ flat_map E (map Do (cb_instrs b')) = flat_map E (map Do (cb_instrs b)).
Definition edited (g g' : clist) : Prop :=
  cl_start g' = cl_start g /\ forall x, match lookup x (cl_blocks g), lookup x (cl_blocks g') with
    | Some b, Some b' => edited_block b b' | None, None => True | _, _ => False end.
Lemma edited_sym g g' : edited g g' -> edited g' g.
Proof.
  intros (S & H). split; [now symmetry|]. intros x. specialize (H x). destruct (lookup x (cl_blocks g)), (lookup x (cl_blocks g')); auto.
  destruct H as (A & B & C & D). repeat split; now symmetry.
Qed.
Lemma edited_edge g g' x y : edited g g' -> edge g x y -> edge g' x y.
Proof.
  intros (_ & H) (b & L & J). specialize (H x). rewrite L in H. destruct (lookup x (cl_blocks g')) as [b'|] eqn:L'; [|contradiction].
  destruct H as (A & B & _). exists b'. split; [exact L'|]. rewrite A, B. exact J.
Qed.
Lemma edited_walk g g' : edited g g' -> forall p, walk g p -> walk g' p.
Proof.
  intros H. induction p as [|x p IH]; [auto|]. destruct p as [|y p].
  - intros I. destruct (key_lookup _ _ I) as (b & L). pose proof (proj2 H x) as Q. rewrite L in Q. destruct (lookup x (cl_blocks g')) as [b'|] eqn:L'; [|contradiction].
    exact (lookup_In_key _ _ _ L').
  - intros [A B]. split; [eapply edited_edge; eauto|auto].
Qed.
Lemma edited_actions g g' x : edited g g' -> flat_map E (actions g' x) = flat_map E (actions g x).
Proof.
  intros (_ & H). specialize (H x). unfold actions. destruct (lookup x (cl_blocks g)), (lookup x (cl_blocks g')); try contradiction; [apply H|reflexivity].
Qed.
Lemma edited_branch g g' x y : edited g g' -> branch g' x y = branch g x y.
Proof.
  intros (_ & H). specialize (H x). unfold branch. destruct (lookup x (cl_blocks g)), (lookup x (cl_blocks g')); try contradiction; [|reflexivity].
  destruct H as (A & _ & C & _). rewrite A, C. reflexivity.
Qed.
Lemma edited_trace g g' : edited g g' -> forall p, flat_map E (trace g' p) = flat_map E (trace g p).
Proof.
  intros H. induction p as [|x p IH]; [reflexivity|]. cbn [trace]. rewrite !flat_map_app, (edited_actions g g' x H). f_equal.
  destruct p as [|y p]; [reflexivity|]. rewrite !flat_map_app, IH, (edited_branch g g' x y H). reflexivity.
Qed.
Lemma edited_runs g g' t : edited g g' -> (exists u, runs g u /\ flat_map E u = t) -> exists u, runs g' u /\ flat_map E u = t.
Proof.
  intros H (u & (p & x & (W & S) & N & T) & F). exists (trace g' (p ++ [x])). split.
  - exists p, x. split; [split; [now apply (edited_walk g)|rewrite S; symmetry; apply H]|]. split; [|reflexivity].
    intros y Ey. apply (N y). apply (edited_edge g' g); [now apply edited_sym|exact Ey].
  - rewrite (edited_trace g g' H), T. exact F.
Qed.
Lemma edited_begins g g' t : edited g g' -> (exists u, begins g u /\ flat_map E u = t) -> exists u, begins g' u /\ flat_map E u = t.
Proof.
  intros H (u & (p & v & (W & S) & T) & F). pose proof (edited_trace g g' H p) as Q. rewrite T, flat_map_app, F in Q.
  apply flat_map_prefix in Q as (u1 & u2 & T' & F1 & F2). exists u1. split; [|exact F1]. exists p, u2. split; [|exact T'].
  split; [now apply (edited_walk g)|rewrite S; symmetry; apply H].
Qed.
Lemma edited_alike g g' : edited g g' -> alike g g'.
Proof.
  intros H. pose proof (edited_sym _ _ H) as H'. split; intros t; split; try (now apply edited_runs); now apply edited_begins.
Qed.

(** Changes of one block at a time: a block is split, or its instructions are
    edited. *)
Record kept_links (b b' : cblock) : Prop := {
  kl_type : cb_type b' = cb_type b; kl_jump : cb_jump_to b' = cb_jump_to b; kl_falls : cb_falls_to b' = cb_falls_to b;
  kl_from : cb_comes_from b' = cb_comes_from b; kl_entries : cb_entries b' = cb_entries b }.
Inductive changed : clist -> clist -> Prop :=
| ch_refl g : changed g g
| ch_split g id i b g1 g2 : consistent g -> splittable g id b -> split_block id i g = Ok g1 ->
    (forall j, In j (skipn (i + 1) (cb_instrs b)) -> li_op j <> "PhiFunction") -> changed g1 g2 -> changed g g2
| ch_edit g x b b' g2 : lookup x (cl_blocks g) = Some b -> edited_block b b' -> kept_links b b' -> changed (put_block x b' g) g2 -> changed g g2.
Lemma changed_trans g1 g2 g3 : changed g1 g2 -> changed g2 g3 -> changed g1 g3.
Proof. intros A B. induction A; auto; [eapply ch_split; eauto|eapply ch_edit; eauto]. Qed.
Lemma edited_put_block g x b b' : lookup x (cl_blocks g) = Some b -> edited_block b b' -> edited g (put_block x b' g).
Proof.
  intros L D. split; [reflexivity|]. intros y. cbn [put_block cl_blocks]. rewrite lookup_dict_set. destruct (String.eqb_spec x y) as [<-|].
  - rewrite L. exact D.
  - destruct (lookup y (cl_blocks g)); [repeat split|exact I].
Qed.
Lemma changed_alike g g' : changed g g' -> alike g g'.
Proof.
  induction 1 as [|g id i b g1 g2 C S R N _ IH|g x b b' g2 L D K _ IH].
  - apply alike_refl.
  - eapply alike_trans; [apply equivalent_alike; eapply split_block_equivalent_partial; eauto|exact IH].
  - eapply alike_trans; [apply edited_alike, (edited_put_block g x b b'); auto|exact IH].
Qed.

(** If [E] changes nothing in [g], this determines its executions. *)
Lemma trace_fixed g : (forall x b i, lookup x (cl_blocks g) = Some b -> In i (cb_instrs b) -> E (Do i) = [Do i]) -> (forall v d, E (Test v d) = [Test v d]) ->
  forall p e, In e (trace g p) -> E e = [e].
Proof.
  intros H1 H2. induction p as [|x p IH]; intros e I; [destruct I|]. cbn [trace] in I. apply in_app_iff in I as [I|I].
  - unfold actions in I. destruct (lookup x (cl_blocks g)) as [b|] eqn:L; [|destruct I]. apply in_map_iff in I as (i & <- & I). eapply H1; eauto.
  - destruct p as [|y p]; [destruct I|]. apply in_app_iff in I as [I|I]; [|auto].
    unfold branch in I. destruct (lookup x (cl_blocks g)) as [b|]; [|destruct I]. destruct (cb_cond b); [|destruct I]. destruct I as [<-|[]]. apply H2.
Qed.
Lemma flat_map_fixed : forall l, (forall e, In e l -> E e = [e]) -> flat_map E l = l.
Proof. induction l as [|e l IH]; intros H; [reflexivity|]. cbn [flat_map]. rewrite (H e (or_introl eq_refl)), IH; [reflexivity|]. intros; apply H; now right. Qed.
Lemma alike_exact g g' : (forall x b i, lookup x (cl_blocks g) = Some b -> In i (cb_instrs b) -> E (Do i) = [Do i]) -> (forall v d, E (Test v d) = [Test v d]) ->
  alike g g' ->
  (forall t, runs g t <-> exists t', runs g' t' /\ flat_map E t' = t) /\ (forall t, begins g t <-> exists t', begins g' t' /\ flat_map E t' = t).
Proof.
  intros H1 H2 (A & B). pose proof (trace_fixed g H1 H2) as F. split; intros t; split.
  - intros R. apply A. exists t. split; [exact R|]. destruct R as (p & x & _ & _ & <-). apply flat_map_fixed. apply F.
  - intros Q. apply A in Q as (u & R & <-). pose proof R as (p & x & _ & _ & T). rewrite flat_map_fixed; [exact R|]. rewrite <- T. apply F.
  - intros R. apply B. exists t. split; [exact R|]. destruct R as (p & v & _ & T). apply flat_map_fixed. intros e I. apply (F p). rewrite T. apply in_app_iff. now left.
  - intros Q. apply B in Q as (u & R & <-). pose proof R as (p & v & _ & T). rewrite flat_map_fixed; [exact R|]. intros e I. apply (F p). rewrite T. apply in_app_iff. now left.
Qed.
End Alike.
