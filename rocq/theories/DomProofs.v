(** Facts about dominators and their tree. *)
From Coq Require Import Relations.
From Verif Require Import Base UtilModel UtilProps OrderSpec DomModel DomSpec.
From Verif Require OrderProofs.
Open Scope list_scope.

Section Graph.
Variables (g : list (string * list string)) (start : string).
Notation walk := (walk g).
Notation reachable := (reachable g start).
Notation dominates := (dominates g start).
Lemma walk_first a l b : walk a l b -> exists l', l = a :: l'.
Proof. destruct 1; eauto. Qed.
Lemma walk_last a l b : walk a l b -> exists l', l = l' ++ [b].
Proof. induction 1 as [a|a b l c E W (l' & ->)]; [exists []; reflexivity|exists (a :: l'); reflexivity]. Qed.
(** The part of a walk up to one of its nodes, and the rest. *)
Lemma walk_split a l b c : walk a l b -> In c l -> exists l1 l2, l = l1 ++ c :: l2 /\ walk a (l1 ++ [c]) c /\ walk c (c :: l2) b.
Proof.
  induction 1 as [a|a b l d E W IH]; intros I.
  - destruct I as [<-|[]]. exists [], []. repeat split; constructor.
  - destruct (string_dec a c) as [->|N]; [exists [], l; repeat split; [constructor|econstructor; eauto]|]. destruct I as [Q|I]; [contradiction|]. destruct (IH I) as (l1 & l2 & -> & A & B). exists (a :: l1), l2. repeat split; [|exact B]. cbn [app]. econstructor; eauto.
Qed.
Lemma walk_app a l b l' c : walk a (l ++ [b]) b -> walk b (b :: l') c -> walk a (l ++ b :: l') c.
Proof.
  revert a. induction l as [|x l IH]; intros a A B; cbn [app] in *.
  - destruct (walk_first _ _ _ A) as (l0 & Q). injection Q as <- <-. exact B.
  - destruct (walk_first _ _ _ A) as (l0 & Q). injection Q as -> <-. inversion A as [? Q|? y ? ? E W]; subst; [destruct l; discriminate|]. econstructor; [exact E|]. now apply IH.
Qed.
Lemma dominates_refl b : dominates b b.
Proof. intros l W. destruct (walk_last _ _ _ W) as (l' & ->). apply in_app_iff. right. now left. Qed.
Lemma dominates_trans a b c : dominates a b -> dominates b c -> dominates a c.
Proof.
  intros A B l W. destruct (walk_split _ _ _ _ W (B l W)) as (l1 & l2 & -> & W1 & _). specialize (A _ W1). rewrite in_app_iff in *. cbn in *. intuition.
Qed.
Lemma dominator_reachable a b : reachable b -> dominates a b -> reachable a.
Proof. intros (l & W) D. destruct (walk_split _ _ _ _ W (D l W)) as (l1 & l2 & _ & W1 & _). now exists (l1 ++ [a]). Qed.
(** A dominator is reached by a shorter walk. *)
Lemma shorter a b l : walk start l b -> dominates a b -> a <> b -> exists l', walk start l' a /\ length l' < length l.
Proof.
  intros W D N. destruct (walk_split _ _ _ _ W (D l W)) as (l1 & l2 & -> & W1 & W2). exists (l1 ++ [a]). split; [exact W1|]. destruct l2 as [|x l2]; [inversion W2 as [|? ? ? ? ? Z]; subst; [congruence|inversion Z]|]. rewrite !app_length. cbn. lia.
Qed.
Lemma dominates_antisym a b : reachable b -> dominates a b -> dominates b a -> a = b.
Proof.
  intros (l & W) A B. destruct (string_dec a b) as [|N]; [assumption|]. exfalso. remember (length l) as n eqn:Q. revert l W Q. induction n as [n IH] using lt_wf_ind. intros l W ->.
  destruct (shorter a b l W A N) as (l1 & W1 & L1). destruct (shorter b a l1 W1 B (fun Q => N (eq_sym Q))) as (l2 & W2 & L2). exact (IH (length l2) ltac:(lia) l2 W2 eq_refl).
Qed.
Lemma start_reachable : reachable start.
Proof. exists [start]. constructor. Qed.
Lemma dominates_start a : dominates a start -> a = start.
Proof. intros D. destruct (D [start] (walk_end _ _)) as [->|[]]. reflexivity. Qed.
Lemma start_dominates b : dominates start b.
Proof. intros l W. destruct (walk_first _ _ _ W) as (l' & ->). now left. Qed.

Section Tree.
Variable idoms : list (string * string).
Hypothesis OK : idoms_ok g start idoms.
Notation tree := (dominance_tree start idoms).
Lemma tree_edge u v : In (u, v) (dt_edges tree) <-> In (v, u) idoms /\ v <> start.
Proof.
  cbn [dominance_tree dt_edges]. rewrite in_map_iff. split.
  - intros ([a b] & Q & I). cbn in Q. injection Q as <- <-. apply filter_In in I as (I & N). cbn in N. destruct (String.eqb_spec a start); [discriminate|auto].
  - intros (I & N). exists (v, u). split; [reflexivity|]. apply filter_In. split; [exact I|]. cbn. destruct (String.eqb_spec v start); [contradiction|reflexivity].
Qed.
Lemma add_node_In x y l : In x (add_node y l) <-> x = y \/ In x l.
Proof. unfold add_node. destruct (mem y l) eqn:M; [apply mem_In in M; intuition congruence|]. rewrite in_app_iff. cbn. intuition. Qed.
Lemma tree_node x : In x (dt_nodes tree) <-> x = start \/ exists y, In (x, y) (dt_edges tree) \/ In (y, x) (dt_edges tree).
Proof.
  unfold dominance_tree. cbn [dt_nodes dt_edges]. rewrite add_node_In. set (es := map _ _). clearbody es.
  assert (H : forall l, In x (fold_left (fun l e => add_node (snd e) (add_node (fst e) l)) es l) <-> In x l \/ exists y, In (x, y) es \/ In (y, x) es).
  { induction es as [|[a b] es IH]; intros l; cbn [fold_left]; [cbn; split; [auto|intros [?|(y & [[]|[]])]; assumption]|]. rewrite IH, !add_node_In. cbn [fst snd In]. split.
    - intros [[->|[->|I]]|(y & H)]; [right; exists a; auto|right; exists b; auto|auto|right; exists y; tauto].
    - intros [I|(y & [[Q|I]|[Q|I]])]; [auto|injection Q as <- <-; auto|right; eauto|injection Q as <- <-; auto|right; eauto]. }
  rewrite H. cbn. tauto.
Qed.
Lemma edge_dominates u v : In (u, v) (dt_edges tree) -> v <> start /\ reachable v /\ immediate g start v u.
Proof. intros I. apply tree_edge in I as (I & N). split; [exact N|]. split; [apply (id_nodes _ _ _ OK v N); exact (in_map fst _ _ I)|exact (id_immediate _ _ _ OK _ _ I N)]. Qed.
Lemma has_edge v : reachable v -> v <> start -> exists u, In (u, v) (dt_edges tree).
Proof. intros R N. apply (id_nodes _ _ _ OK v N) in R. apply in_map_iff in R as ([a u] & Q & I). cbn in Q. subst a. exists u. apply tree_edge. auto. Qed.
Lemma tree_nodes x : In x (dt_nodes tree) <-> reachable x.
Proof.
  rewrite tree_node. split.
  - intros [->|(y & [I|I])]; [apply start_reachable| |]; apply edge_dominates in I as (_ & R & _ & D & _); [exact (dominator_reachable _ _ R D)|exact R].
  - intros R. destruct (string_dec x start) as [->|N]; [now left|]. right. destruct (has_edge x R N) as (u & I). eauto.
Qed.
Lemma one_parent u u' v : In (u, v) (dt_edges tree) -> In (u', v) (dt_edges tree) -> u = u'.
Proof.
  intros A B. apply edge_dominates in A as (_ & R & N & D & M). apply edge_dominates in B as (_ & _ & N' & D' & M'). apply dominates_antisym; [exact (dominator_reachable _ _ R D')|now apply M'|now apply M].
Qed.
Lemma path_dominates a b : reachable b -> tree_path (dt_edges tree) a b <-> dominates a b.
Proof.
  intros R. split.
  - induction 1 as [a b I| |a b c _ IH1 P2 IH2]; [apply edge_dominates in I; apply I|apply dominates_refl|]. eapply dominates_trans; [apply IH1|apply IH2; exact R]. specialize (IH2 R). exact (dominator_reachable _ _ R IH2).
  - destruct R as (l & W). remember (length l) as n eqn:Q. revert b l W Q. induction n as [n IH] using lt_wf_ind. intros b l W -> D. destruct (string_dec a b) as [->|N]; [apply rt_refl|].
    destruct (string_dec b start) as [->|S]; [apply dominates_start in D; contradiction|]. destruct (has_edge b (ex_intro _ l W) S) as (u & I). pose proof (edge_dominates _ _ I) as (_ & R & Nu & Du & M).
    destruct (shorter u b l W Du Nu) as (l' & W' & L). eapply rt_trans; [exact (IH _ L u l' W' eq_refl (M a N D))|]. now apply rt_step.
Qed.
Lemma earlier_trans order a b c : NoDup order -> earlier order a b -> earlier order b c -> earlier order a c.
Proof.
  intros ND (l1 & l2 & -> & A & B) (m1 & m2 & E & B' & C). exists m1, m2. split; [exact E|]. split; [|exact C].
  assert (H : forall (l1 l2 m1 m2 : list string), l1 ++ l2 = m1 ++ m2 -> (exists k, m1 = l1 ++ k) \/ (exists k, l1 = m1 ++ k)).
  { clear. induction l1 as [|x l1 IH]; intros l2 m1 m2 E; [left; exists m1; reflexivity|]. destruct m1 as [|y m1]; [right; exists (x :: l1); reflexivity|]. cbn in E. injection E as <- E. destruct (IH _ _ _ E) as [(k & ->)|(k & ->)]; [left|right]; exists k; reflexivity. }
  destruct (H _ _ _ _ E) as [(k & ->)|(k & ->)]; [apply in_app_iff; auto|]. exfalso. clear -ND B B'. induction m1 as [|x m1 IH]; [destruct B'|]. cbn in ND. inversion ND as [|? ? N1 N2]; subst. destruct B' as [->|I]; [apply N1; rewrite in_app_iff; auto|auto].
Qed.
Lemma dominators_earlier order a b : topological (dt_nodes tree) (dt_edges tree) order -> reachable b -> a <> b -> dominates a b -> earlier order a b.
Proof.
  intros (ND & _ & T) R N D. apply (path_dominates a b R) in D. apply clos_rt_rtn1 in D. clear R. induction D as [|b c I P IH]; [contradiction|]. destruct (string_dec a b) as [->|M]; [now apply T|]. eapply earlier_trans; eauto.
Qed.
Lemma tree_walk_nodes a l b : reachable a -> tree_walk (dt_edges tree) a l b -> reachable b /\ NoDup l /\ forall x, In x l <-> dominates a x /\ dominates x b.
Proof.
  intros Ra. induction 1 as [a|a l b c W IH I].
  - split; [exact Ra|]. split; [repeat constructor; auto|]. intros x. cbn. split; [intros [<-|[]]; split; apply dominates_refl|]. intros (A & B). left. exact (dominates_antisym _ _ (dominator_reachable _ _ Ra B) A B).
  - destruct (IH Ra) as (Rb & ND & M). apply edge_dominates in I as (_ & Rc & Nb & Db & Im). split; [exact Rc|]. split.
    + assert (Nc : ~ In c l) by (intros J; apply M in J as (_ & J); apply Nb; exact (dominates_antisym _ _ Rc Db J)).
      clear -ND Nc. induction l as [|y l IHl]; cbn; [repeat constructor; auto|]. inversion ND as [|? ? N1 N2]; subst. constructor; [rewrite in_app_iff; intros [J|[->|[]]]; [contradiction|apply Nc; now left]|apply IHl; [exact N2|intros J; apply Nc; now right]].
    + intros x. rewrite in_app_iff, M. cbn. split.
      * intros [(A & B)|[<-|[]]]; [split; [exact A|exact (dominates_trans _ _ _ B Db)]|]. split; [|apply dominates_refl].
        assert (Al : In a l) by (clear -W; induction W; [now left|apply in_app_iff; now left]). apply M in Al as (_ & Al). exact (dominates_trans _ _ _ Al Db).
      * intros (A & B). destruct (string_dec x c) as [->|N]; [auto|left]. split; [exact A|now apply Im].
Qed.
Lemma tree_walk_exists a b : tree_path (dt_edges tree) a b -> exists l, tree_walk (dt_edges tree) a l b.
Proof. intros P. apply clos_rt_rtn1 in P. induction P as [|b c I _ (l & W)]; [exists [a]; constructor|exists (l ++ [c]); econstructor; eauto]. Qed.
End Tree.
End Graph.

(** The immediate dominators exist. *)
Section Exists.
Variables (g : list (string * list string)) (start : string).
Hypothesis once : NoDup (nodes g).
Hypothesis inside : forall u v, edge g u v -> In v (nodes g).
Notation walk := (walk g).
Notation reachable := (reachable g start).
Notation dominates := (dominates g start).
(** The graph without the node [a]. *)
Definition without (a : string) : list (string * list string) :=
  map (fun e => (fst e, filter (fun v => negb (String.eqb v a)) (snd e))) (filter (fun e => negb (String.eqb (fst e) a)) g).
Lemma without_edge a u v : edge (without a) u v <-> edge g u v /\ u <> a /\ v <> a.
Proof.
  unfold edge, without. split.
  - intros (l & I & J). apply in_map_iff in I as ([x l'] & Q & I). cbn in Q. injection Q as <- <-. apply filter_In in I as (I & N). apply filter_In in J as (J & M). cbn in N. split; [eauto|]. destruct (String.eqb_spec x a), (String.eqb_spec v a); try discriminate. auto.
  - intros ((l & I & J) & N & M). exists (filter (fun v => negb (String.eqb v a)) l). split.
    + apply in_map_iff. exists (u, l). split; [reflexivity|]. apply filter_In. split; [exact I|]. cbn. destruct (String.eqb_spec u a); [contradiction|reflexivity].
    + apply filter_In. split; [exact J|]. destruct (String.eqb_spec v a); [contradiction|reflexivity].
Qed.
Lemma without_nodes a : nodes (without a) = filter (fun x => negb (String.eqb x a)) (nodes g).
Proof. unfold nodes, without. rewrite map_map. cbn [fst]. clear. induction g as [|[x l] g' IH]; [reflexivity|]. cbn. destruct (String.eqb x a); cbn; [exact IH|f_equal; exact IH]. Qed.
Lemma walk_avoiding a x y : x <> a -> path (without a) x y -> exists l, walk x l y /\ ~ In a l.
Proof.
  intros N P. apply clos_rt_rt1n in P. induction P as [x|x y z E _ IH].
  - exists [x]. split; [constructor|]. intros [Q|[]]. contradiction.
  - apply without_edge in E as (E & _ & M). destruct (IH M) as (l & W & I). exists (x :: l). split; [econstructor; eauto|]. intros [Q|J]; contradiction.
Qed.
Lemma avoiding_walk a x l y : walk x l y -> ~ In a l -> path (without a) x y.
Proof.
  induction 1 as [x|x b l y E W IH]; intros N; [apply rt_refl|]. eapply rt_trans; [apply rt_step|apply IH; intros I; apply N; now right].
  apply without_edge. split; [exact E|]. split; [intros ->; apply N; now left|]. intros ->. apply N. right. destruct (walk_first _ _ _ _ W) as (l' & ->). now left.
Qed.
Lemma dominates_dec a b : dominates a b \/ exists l, walk start l b /\ ~ In a l.
Proof.
  destruct (string_dec start a) as [<-|N]; [left; apply start_dominates|].
  assert (D : path (without a) start b \/ ~ path (without a) start b).
  { assert (O : NoDup (nodes (without a))) by (rewrite without_nodes; apply NoDup_filter; exact once).
    assert (I : forall u v, edge (without a) u v -> In v (nodes (without a))) by (intros u v E; apply without_edge in E as (E & _ & M); rewrite without_nodes; apply filter_In; split; [exact (inside u v E)|destruct (String.eqb_spec v a); [contradiction|reflexivity]]).
    pose proof (OrderProofs.path_through (without a) I start b) as H. destruct (OrderProofs.through (without a) (nodes (without a)) start b); [left; now apply H|right; intros Q; apply H in Q; discriminate]. }
  destruct D as [P|P]; [right; exact (walk_avoiding a start b N P)|left]. intros l W. destruct (in_dec string_dec a l) as [I|I]; [exact I|]. destruct P. exact (avoiding_walk a _ _ _ W I).
Qed.
(** Two dominators of a node: one dominates the other. *)
Lemma last_of a b (l : list string) : In a l -> exists l1 x l2, l = l1 ++ x :: l2 /\ (x = a \/ x = b) /\ ~ In a l2 /\ ~ In b l2.
Proof.
  induction l as [|y l IH]; intros I; [destruct I|]. destruct (in_dec string_dec a l) as [J|J]; [destruct (IH J) as (l1 & x & l2 & -> & H); exists (y :: l1), x, l2; auto|].
  destruct I as [->|I]; [|contradiction]. destruct (in_dec string_dec b l) as [K|K]; [|exists [], a, l; auto].
  clear IH. assert (H : exists l1 l2, l = l1 ++ b :: l2 /\ ~ In b l2).
  { clear J. induction l as [|z l IH]; [destruct K|]. destruct (in_dec string_dec b l) as [M|M]; [destruct (IH M) as (l1 & l2 & -> & H); exists (z :: l1), l2; auto|]. destruct K as [->|K]; [exists [], l; auto|contradiction]. }
  destruct H as (l1 & l2 & -> & H). exists (a :: l1), b, l2. split; [reflexivity|]. split; [auto|]. split; [|exact H]. intros M. apply J. apply in_app_iff. right. now right.
Qed.
Lemma chain a b u : reachable u -> dominates a u -> dominates b u -> dominates a b \/ dominates b a.
Proof.
  intros (l & W) A B. destruct (dominates_dec a b) as [|(p & Wp & Np)]; [auto|]. destruct (dominates_dec b a) as [|(q & Wq & Nq)]; [auto|]. exfalso.
  destruct (last_of a b l (A l W)) as (l1 & x & l2 & -> & X & Na & Nb). assert (Wx : walk x (x :: l2) u).
  { clear -W. revert W. generalize start at 1. induction l1 as [|y l1 IH]; intros s W; cbn [app] in W.
    - destruct (walk_first _ _ _ _ W) as (l' & Q). injection Q as <- _. exact W.
    - inversion W as [? Q|? z ? ? E W']; subst; [destruct l1; discriminate|]. exact (IH _ W'). }
  assert (J : forall c d r, walk start r c -> ~ In d r -> walk c (c :: l2) u -> ~ In d l2 -> dominates d u -> False).
  { intros c d r Wr Nr Wc N2 D. destruct (walk_last _ _ _ _ Wr) as (r' & ->). specialize (D _ (walk_app _ _ _ _ _ _ Wr Wc)). rewrite in_app_iff in *. cbn in *. intuition. }
  destruct X as [-> | ->]; [exact (J a b q Wq Nq Wx Nb B)|exact (J b a p Wp Np Wx Na A)].
Qed.
Lemma immediate_exists u : reachable u -> u <> start -> exists v, immediate g start u v.
Proof.
  intros R N.
  assert (H : forall L, (exists v, v <> u /\ dominates v u /\ forall w, In w L -> w <> u -> dominates w u -> dominates w v)).
  { induction L as [|w L (v & V1 & V2 & V3)]; [exists start; split; [auto|]; split; [apply start_dominates|intros w []]|].
    destruct (string_dec w u) as [->|Nw]; [exists v; split; [exact V1|]; split; [exact V2|]; intros w [<-|I] Q; [contradiction|auto]|].
    destruct (dominates_dec w u) as [D|(l & Wl & Nl)]; [|exists v; split; [exact V1|]; split; [exact V2|]; intros x [<-|I] Q D; [destruct (Nl (D l Wl))|auto]].
    destruct (chain w v u R D V2) as [C|C]; [exists v; split; [exact V1|]; split; [exact V2|]; intros x [<-|I] Q D'; [exact C|auto]|].
    exists w. split; [exact Nw|]. split; [exact D|]. intros x [<-|I] Q D'; [apply dominates_refl|]. eapply dominates_trans; [exact (V3 x I Q D')|exact C]. }
  destruct R as (l & W). destruct (H l) as (v & A & B & C). exists v. split; [exact A|]. split; [exact B|]. intros w Nw D. apply C; auto.
Qed.
Lemma reachable_dec u : reachable u \/ ~ reachable u.
Proof.
  destruct (dominates_dec u u) as [_|(l & W & N)]; [|left; exists l; exact W].
  pose proof (OrderProofs.path_through g inside start u) as H. assert (E : forall x y, path g x y -> exists l, walk x l y).
  { intros x y P. apply clos_rt_rt1n in P. induction P as [x|x y z Ed _ (l & W)]; [exists [x]; constructor|exists (x :: l); econstructor; eauto]. }
  destruct (OrderProofs.through g (nodes g) start u); [left; apply E; now apply H|right; intros (l & W)]. assert (Q : path g start u); [|apply H in Q; discriminate].
  clear -W. induction W as [|x b l y Ed W IH]; [apply rt_refl|]. eapply rt_trans; [apply rt_step; exact Ed|exact IH].
Qed.
Lemma reachable_node u : reachable u -> u <> start -> In u (nodes g).
Proof. intros (l & W) N. revert N. assert (H : u = start \/ In u (nodes g)); [|tauto]. induction W as [|x b l y E W IH]; [now left|]. right. destruct IH as [->|I]; [exact (inside _ _ E)|exact I]. Qed.
Lemma idoms_exist : exists idoms, idoms_ok g start idoms.
Proof.
  assert (H : forall L, NoDup L -> exists idoms, NoDup (map fst idoms) /\ (forall u, In u (map fst idoms) <-> In u L /\ u <> start /\ reachable u) /\ (forall u v, In (u, v) idoms -> immediate g start u v)).
  { induction L as [|x L IH]; intros ND; [exists []; split; [constructor|]; split; [intros u; cbn; tauto|intros u v []]|]. inversion ND as [|? ? N1 N2]; subst. destruct (IH N2) as (ids & A & B & C).
    destruct (string_dec x start) as [->|Nx]; [exists ids; split; [exact A|]; split; [intros u; rewrite B; cbn; intuition congruence|exact C]|].
    destruct (reachable_dec x) as [R|R]; [|exists ids; split; [exact A|]; split; [intros u; rewrite B; cbn; intuition congruence|exact C]].
    destruct (immediate_exists x R Nx) as (v & V). exists ((x, v) :: ids). cbn [map fst]. split; [constructor; [rewrite B; tauto|exact A]|]. split.
    - intros u. cbn [In]. rewrite B. split; [intros [<-|(I & ? & ?)]; auto|intros ([->|I] & ? & ?); auto].
    - intros u w [Q|I]; [injection Q as <- <-; exact V|now apply C]. }
  destruct (H (nodes g) once) as (ids & A & B & C). exists ids. split; [exact A| |intros u v I _; now apply C].
  intros u N. rewrite B. split; [tauto|]. intros R. split; [now apply reachable_node|auto].
Qed.
End Exists.
