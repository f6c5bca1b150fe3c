(** The order of the functions follows from what networkx documents, and there is
    such an order for every graph. *)
From Coq Require Import Relations.
From Verif Require Import Base Lexical UtilModel UtilProps LiveModel CfgModel InlineModel JumpModel JumpSpec ObjSem ObjDriverSpec InlineDriverModel ObjDriver OrderModel OrderSpec.
From Verif Require ProgLayout.
Open Scope string_scope. Open Scope list_scope.

Lemma called_names_in info : forall seen f, In f (called_names seen info) <-> ~ In f seen /\ exists s, In (f, s) info.
Proof.
  induction info as [|[h s] info IH]; intros seen f; cbn [called_names]; [split; [intros []|intros (_ & s & [])]|].
  destruct (mem h seen) eqn:M.
  - apply mem_In in M. rewrite IH. split; intros (N & t & H); (split; [exact N|]); [exists t; now right|]. destruct H as [H|H]; [injection H as -> ->; tauto|eauto].
  - assert (~ In h seen) by (rewrite <- mem_In, M; discriminate). cbn [In]. rewrite IH. cbn [In]. split.
    + intros [<-|(N & t & H0)]; [eauto|]. split; [tauto|]. exists t. now right.
    + intros (N & t & [Q|I]); [injection Q as -> ->; now left|]. destruct (string_dec h f); [now left|right]. split; [tauto|eauto].
Qed.
Lemma called_names_once info : forall seen, NoDup (called_names seen info).
Proof.
  induction info as [|[h s] info IH]; intros seen; cbn [called_names]; [constructor|]. destruct (mem h seen); [apply IH|]. constructor; [|apply IH]. rewrite called_names_in. cbn. tauto.
Qed.
Lemma deps_nodes info : nodes (function_deps info) = called_names [] info.
Proof. unfold nodes, function_deps. rewrite map_map. cbn [fst]. apply map_id. Qed.
Lemma deps_edge info f p : edge (function_deps info) f p <-> (exists n id, In (f, (n, id, Some p)) info) /\ (exists s, In (p, s) info).
Proof.
  unfold edge, function_deps. split.
  - intros (l & I & H). apply in_map_iff in I as (h & Q & I). injection Q as -> <-. apply filter_In in H as (H & M). apply mem_In, called_names_in in M as (_ & M). split; [|exact M].
    apply in_flat_map in H as ([[n id] c] & H & C). apply in_map_iff in H as ([h s] & Q & H). cbn [snd] in Q. subst s. apply filter_In in H as (H & E). cbn [fst] in E. apply String.eqb_eq in E. subst h.
    destruct c as [q|]; cbn in C; [destruct C as [->|[]]; eauto|destruct C].
  - intros ((n & id & H) & s & M). eexists. split; [apply in_map_iff; exists f; split; [reflexivity|]|].
    + apply called_names_in. split; [intros []|eauto].
    + apply filter_In. split; [|apply mem_In, called_names_in; split; [intros []|eauto]]. apply in_flat_map. exists (n, id, Some p). split; [|now left]. apply in_map_iff. exists (f, (n, id, Some p)). split; [reflexivity|]. apply filter_In. split; [exact H|apply String.eqb_refl].
Qed.

Section Object.
Variable ob : cobject.
Hypothesis OO : object_ok ob.
Notation info := (function_calls ob).
Notation fns := (map fst (ob_functions ob)).
Lemma info_call f c id n : In (f, (n, id, c)) info -> In f fns /\ exists m, call_at ob f c id m.
Proof.
  intros H. assert (J : In (n, id, c) (calls_of info f)) by (apply in_map_iff; exists (f, (n, id, c)); split; [reflexivity|]; apply filter_In; split; [exact H|apply String.eqb_refl]).
  apply (in_calls_of ob OO) in J as (If & blk & i & B & E & O). split; [exact If|]. eexists. apply (site_call ob OO f c id _ If). exists blk, n, i. split; [exact B|]. split; [reflexivity|auto].
Qed.
Lemma call_info f c id m : In f fns -> call_at ob f c id m -> exists n, In (f, (n, id, c)) info.
Proof.
  intros If H. apply (site_call ob OO f c id m If) in H as (blk & n & i & B & _ & E & O). exists n. assert (J : In (n, id, c) (calls_of info f)) by (apply (in_calls_of ob OO); eauto 6).
  apply in_map_iff in J as ([h s] & Q & J). cbn [snd] in Q. subst s. apply filter_In in J as (J & E2). cbn [fst] in E2. apply String.eqb_eq in E2. subst h. exact J.
Qed.
Lemma path_calls f p : path (function_deps info) f p -> f = p \/ calls ob p f.
Proof.
  intros H. induction H as [f p H|f|f q p _ IH1 _ IH2]; [right|now left|].
  - apply deps_edge in H as ((n & id & H) & _). apply info_call in H as (If & m & C). exact (calls_here ob p f id m C If).
  - destruct IH1 as [->|H1]; [exact IH2|]. destruct IH2 as [<-|H2]; [now right|]. right. exact (calls_trans ob p q f H2 H1).
Qed.
Lemma components_order cs : sorted_components (function_deps info) cs -> inlining_order ob (original_sort cs).
Proof.
  intros [H1 H2 H3 H4]. unfold original_sort. assert (Nd : forall f, In f (concat cs) <-> In f fns /\ exists c b n, call_at ob f c b n).
  { intros f. rewrite H2, deps_nodes, called_names_in. split.
    - intros (_ & [[n id] c] & I). apply info_call in I as (If & m & C). eauto 6.
    - intros (If & c & b & n & C). split; [intros []|]. apply (call_info f c b n If) in C as (m & I). eauto. }
  constructor; [exact H1|exact Nd|]. intros f p b n If Ip C NC. assert (Ff : In f fns) by (apply Nd in If; tauto).
  assert (E : edge (function_deps info) f p).
  { apply deps_edge. split; [apply (call_info f (Some p) b n Ff) in C as (m & I); eauto|]. apply Nd in Ip as (Fp & c & b' & n' & C'). apply (call_info p c b' n' Fp) in C' as (m & I). eauto. }
  destruct (H4 f p E) as (l1 & m1 & l2 & m2 & l3 & -> & I1 & I2).
  - intros S. apply NC. apply H3 in S; [|now apply H2|now apply H2]. destruct (path_calls p f (proj2 S)) as [->|Q]; [|exact Q]. exact (calls_here ob f f b n C Ff).
  - apply in_split in I1 as (a1 & b1 & ->). apply in_split in I2 as (a2 & b2 & ->). exists (concat l1 ++ a1), (b1 ++ concat l2 ++ a2), (b2 ++ concat l3).
    rewrite !concat_app. cbn [concat]. rewrite !concat_app. cbn [concat]. repeat (progress (rewrite <- ?app_assoc; cbn [app])). reflexivity.
Qed.
End Object.

(** ** Such an order exists *)
Section Exists.
Variable g : list (string * list string).
Hypothesis once : NoDup (nodes g).
Hypothesis inside : forall u v, edge g u v -> In v (nodes g).
Definition edgeb (u v : string) : bool := existsb (fun e => String.eqb (fst e) u && mem v (snd e)) g.
Lemma edgeb_iff u v : edgeb u v = true <-> edge g u v.
Proof.
  unfold edgeb. rewrite existsb_exists. split.
  - intros ([h l] & I & Q). cbn in Q. apply andb_true_iff in Q as (Q & M). apply String.eqb_eq in Q. subst h. apply mem_In in M. exists l. auto.
  - intros (l & I & H). exists (u, l). split; [exact I|]. cbn. rewrite String.eqb_refl. now apply mem_In.
Qed.
Fixpoint through (L : list string) (x y : string) : bool :=
  match L with [] => String.eqb x y || edgeb x y | z :: L' => through L' x y || (through L' x z && through L' z y) end.
Lemma through_path L : forall x y, through L x y = true -> path g x y.
Proof.
  induction L as [|z L IH]; cbn [through]; intros x y H.
  - apply orb_true_iff in H as [H|H]; [apply String.eqb_eq in H; subst; apply rt_refl|]. apply edgeb_iff in H. apply rt_step. exact H.
  - apply orb_true_iff in H as [H|H]; [exact (IH _ _ H)|]. apply andb_true_iff in H as (A & B). eapply rt_trans; eapply IH; eassumption.
Qed.
Lemma through_more L x y : through [] x y = true -> through L x y = true.
Proof. intros H. induction L as [|z L IH]; [exact H|]. cbn [through]. rewrite IH. reflexivity. Qed.
Lemma through_trans L : forall x y z, In z L -> through L x z = true -> through L z y = true -> through L x y = true.
Proof.
  induction L as [|w L IH]; intros x y z I A B; [destruct I|]. cbn [through] in *. apply orb_true_iff in A, B. rewrite !andb_true_iff in A, B. apply orb_true_iff. rewrite andb_true_iff. destruct I as [<-|I]; [tauto|].
  destruct A as [A|[A A']], B as [B|[B B']].
  - left. exact (IH _ _ _ I A B).
  - right. split; [exact (IH _ _ _ I A B)|exact B'].
  - right. split; [exact A|exact (IH _ _ _ I A' B)].
  - right. auto.
Qed.
Notation P := (through (nodes g)).
Lemma path_through x y : path g x y <-> P x y = true.
Proof.
  split; [|apply through_path]. intros H. apply clos_rt_rt1n in H. assert (K : x = y \/ exists z, edge g x z /\ clos_refl_trans_1n string (edge g) z y) by (destruct H; eauto).
  clear K. induction H as [x|x z y E _ IH]; [apply through_more; cbn; rewrite String.eqb_refl; reflexivity|].
  apply (through_trans _ x y z (inside _ _ E)); [|exact IH]. apply through_more. cbn. apply orb_true_iff. right. now apply edgeb_iff.
Qed.
Lemma P_refl x : P x x = true.
Proof. apply path_through. apply rt_refl. Qed.
Lemma P_trans x y z : P x y = true -> P y z = true -> P x z = true.
Proof. rewrite <- !path_through. intros A B. eapply rt_trans; eassumption. Qed.
Definition mutual (x y : string) : bool := P x y && P y x.
Definition rank (x : string) : nat := length (filter (fun w => P w x) (nodes g)).
Fixpoint firsts (l : list string) : list string := match l with [] => [] | x :: l' => x :: filter (fun y => negb (mutual x y)) (firsts l') end.
Definition heads : list string := flat_map (fun r => filter (fun x => Nat.eqb (rank x) r) (firsts (nodes g))) (seq 0 (S (length (nodes g)))).
Definition found : list (list string) := map (fun x => filter (mutual x) (nodes g)) heads.
Lemma mutual_refl x : mutual x x = true.
Proof. unfold mutual. rewrite P_refl. reflexivity. Qed.
Lemma mutual_sym x y : mutual x y = mutual y x.
Proof. unfold mutual. apply andb_comm. Qed.
Lemma mutual_trans x y z : mutual x y = true -> mutual y z = true -> mutual x z = true.
Proof. unfold mutual. rewrite !andb_true_iff. intros [A B] [C D]. split; eapply P_trans; eassumption. Qed.
Lemma filter_sub_length (p q : string -> bool) l : (forall x, In x l -> p x = true -> q x = true) -> length (filter p l) <= length (filter q l).
Proof.
  induction l as [|x l IH]; intros H; [apply le_n|]. cbn. assert (IH' := IH (fun y I => H y (or_intror I))). destruct (p x) eqn:A; [rewrite (H x (or_introl eq_refl) A); cbn; lia|]. destruct (q x); cbn; lia.
Qed.
Lemma filter_strict_length (p q : string -> bool) l w : (forall x, In x l -> p x = true -> q x = true) -> In w l -> p w = false -> q w = true -> length (filter p l) < length (filter q l).
Proof.
  induction l as [|x l IH]; intros H I A B; [destruct I|]. cbn. assert (S := filter_sub_length p q l (fun y J => H y (or_intror J))). destruct I as [->|I]; [rewrite A, B; cbn; lia|].
  assert (IH' := IH (fun y J => H y (or_intror J)) I A B). destruct (p x) eqn:E; [rewrite (H x (or_introl eq_refl) E); cbn; lia|]. destruct (q x); cbn; lia.
Qed.
Lemma rank_mutual x y : mutual x y = true -> rank x = rank y.
Proof.
  unfold mutual. rewrite andb_true_iff. intros [A B]. apply Nat.le_antisymm; apply filter_sub_length; intros w _ H; eapply P_trans; eassumption.
Qed.
Lemma rank_less x y : In y (nodes g) -> P x y = true -> mutual x y = false -> rank x < rank y.
Proof.
  intros I A M. apply (filter_strict_length _ _ _ y); [intros w _ H; eapply P_trans; eassumption|exact I| |apply P_refl]. unfold mutual in M. rewrite A in M. exact M.
Qed.
Lemma filter_short (p : string -> bool) l : length (filter p l) <= length l.
Proof. induction l as [|a l IH]; [apply le_n|]. cbn. destruct (p a); cbn; lia. Qed.
Lemma rank_bound x : rank x < S (length (nodes g)).
Proof. unfold rank. apply Nat.lt_succ_r. apply filter_short. Qed.
Lemma firsts_in l : forall x, In x (firsts l) -> In x l.
Proof. induction l as [|a l IH]; intros x H; [exact H|]. cbn in H. destruct H as [<-|H]; [now left|]. apply filter_In in H as (H & _). right. now apply IH. Qed.
Lemma firsts_cover l : forall x, In x l -> exists h, In h (firsts l) /\ mutual h x = true.
Proof.
  induction l as [|a l IH]; intros x H; [destruct H|]. destruct (mutual a x) eqn:M; [exists a; split; [now left|exact M]|]. destruct H as [<-|H]; [rewrite mutual_refl in M; discriminate|].
  destruct (IH x H) as (h & I & N). exists h. split; [|exact N]. right. apply filter_In. split; [exact I|]. apply negb_true_iff. destruct (mutual a h) eqn:Q; [|reflexivity]. rewrite (mutual_trans _ _ _ Q N) in M. discriminate.
Qed.
Lemma firsts_apart l : forall x y, In x (firsts l) -> In y (firsts l) -> mutual x y = true -> x = y.
Proof.
  induction l as [|a l IH]; intros x y H K M; [destruct H|]. cbn in H, K. destruct H as [<-|H], K as [<-|K]; [reflexivity|..].
  - apply filter_In in K as (_ & K). rewrite M in K. discriminate.
  - apply filter_In in H as (_ & H). rewrite mutual_sym, M in H. discriminate.
  - apply filter_In in H as (H & _), K as (K & _). now apply IH.
Qed.
Lemma firsts_once l : NoDup l -> NoDup (firsts l).
Proof. induction 1 as [|a l N _ IH]; [constructor|]. cbn. constructor; [|now apply NoDup_filter]. intros H. apply filter_In in H as (H & _). apply N. now apply firsts_in. Qed.
Lemma heads_in x : In x heads <-> In x (firsts (nodes g)).
Proof.
  unfold heads. rewrite in_flat_map. split.
  - intros (r & _ & H). now apply filter_In in H as (H & _).
  - intros H. exists (rank x). split; [apply in_seq; split; [lia|]; cbn; apply rank_bound|]. apply filter_In. split; [exact H|apply Nat.eqb_refl].
Qed.
Lemma heads_once : NoDup heads.
Proof.
  unfold heads. generalize (S (length (nodes g))) as n. generalize 0 as a. intros a n. revert a. induction n as [|n IH]; intros a; [constructor|]. cbn [seq flat_map].
  apply ProgLayout.NoDup_app_intro; [apply NoDup_filter, firsts_once, once|apply IH|]. intros x H K. apply filter_In in H as (_ & H). apply Nat.eqb_eq in H. apply in_flat_map in K as (r & R & K). apply filter_In in K as (_ & K). apply Nat.eqb_eq in K. apply in_seq in R. lia.
Qed.
Lemma heads_sorted x y : In x heads -> In y heads -> rank x < rank y -> exists l1 l2 l3, heads = l1 ++ x :: l2 ++ y :: l3.
Proof.
  intros X Y L. apply heads_in in X, Y. unfold heads. assert (Bx := rank_bound x). assert (By := rank_bound y). revert Bx By. generalize (S (length (nodes g))) as n. intros n Bx By.
  replace n with (rank y + (n - rank y)) by lia. rewrite seq_app, flat_map_app. cbn [plus]. 
  assert (A : In x (flat_map (fun r => filter (fun z => Nat.eqb (rank z) r) (firsts (nodes g))) (seq 0 (rank y)))) by (apply in_flat_map; exists (rank x); split; [apply in_seq; lia|apply filter_In; split; [exact X|apply Nat.eqb_refl]]).
  assert (B : In y (flat_map (fun r => filter (fun z => Nat.eqb (rank z) r) (firsts (nodes g))) (seq (rank y) (n - rank y)))) by (apply in_flat_map; exists (rank y); split; [apply in_seq; lia|apply filter_In; split; [exact Y|apply Nat.eqb_refl]]).
  apply in_split in A as (a1 & a2 & ->). apply in_split in B as (b1 & b2 & ->). exists a1, (a2 ++ b1), b2. rewrite <- !app_assoc. reflexivity.
Qed.
Lemma found_in x : In x (concat found) <-> In x (nodes g).
Proof.
  unfold found. rewrite <- flat_map_concat_map, in_flat_map. split.
  - intros (h & _ & H). now apply filter_In in H as (H & _).
  - intros H. destruct (firsts_cover _ _ H) as (h & I & M). exists h. split; [now apply heads_in|]. apply filter_In. auto.
Qed.
Lemma found_same x y : In x (nodes g) -> In y (nodes g) -> (exists m, In m found /\ In x m /\ In y m) <-> mutual x y = true.
Proof.
  intros X Y. split.
  - intros (m & I & A & B). apply in_map_iff in I as (h & <- & _). apply filter_In in A as (_ & A), B as (_ & B). rewrite mutual_sym in A. exact (mutual_trans _ _ _ A B).
  - intros M. destruct (firsts_cover _ _ X) as (h & I & N). exists (filter (mutual h) (nodes g)). split; [apply in_map_iff; exists h; split; [reflexivity|now apply heads_in]|]. split; apply filter_In; [auto|]. split; [exact Y|exact (mutual_trans _ _ _ N M)].
Qed.
Lemma found_once : NoDup (concat found).
Proof.
  unfold found. assert (A : forall x y, In x heads -> In y heads -> mutual x y = true -> x = y) by (intros x y H K; apply heads_in in H, K; exact (firsts_apart _ _ _ H K)). assert (N := heads_once). revert A N. generalize heads. intros l A N. induction N as [|h l Nh _ IH]; [constructor|].
  cbn [map concat]. apply ProgLayout.NoDup_app_intro; [apply NoDup_filter, once|apply IH; intros x y H K; apply A; now right|]. intros x H K. apply filter_In in H as (_ & H). rewrite <- flat_map_concat_map in K. apply in_flat_map in K as (h' & I & K). apply filter_In in K as (_ & K).
  apply Nh. rewrite (A h h'); [exact I|now left|now right|]. rewrite mutual_sym in K. exact (mutual_trans _ _ _ H K).
Qed.
Lemma found_sorted : sorted_components g found.
Proof.
  constructor; [exact found_once|exact found_in| |].
  - intros x y X Y. rewrite (found_same x y X Y). unfold mutual. rewrite andb_true_iff, <- !path_through. reflexivity.
  - intros u v E N. assert (U : In u (nodes g)) by (destruct E as (l & I & _); unfold nodes; change u with (fst (u, l)); now apply in_map). assert (V := inside _ _ E). rewrite (found_same u v U V) in N.
    assert (Q : P u v = true) by (apply path_through; now apply rt_step). destruct (firsts_cover _ _ U) as (h & Ih & Mh), (firsts_cover _ _ V) as (k & Ik & Mk).
    assert (L : rank h < rank k) by (rewrite (rank_mutual _ _ Mh), (rank_mutual _ _ Mk); apply rank_less; [exact V|exact Q|destruct (mutual u v); [tauto|reflexivity]]).
    apply heads_in in Ih, Ik. destruct (heads_sorted h k Ih Ik L) as (l1 & l2 & l3 & H). unfold found. rewrite H, map_app. cbn [map]. rewrite map_app. cbn [map]. eexists _, _, _, _, _. split; [reflexivity|]. split; apply filter_In; auto.
Qed.
End Exists.
