(** The tree of dominators that the layouts and the reparation are based on tells
    which blocks every run goes through. *)
From Coq Require Import Relations.
From Verif Require Import Base UtilModel UtilProps LiveModel CfgModel CfgSpec CfgProps OrderSpec DomModel DomSpec DomProofs.
From Verif Require JumpProps RemoveProps.
Notation lookup := UtilModel.lookup.
Open Scope string_scope. Open Scope list_scope.

Lemma graph_edges g a b : NoDup (map fst (cl_blocks g)) -> OrderSpec.edge (to_graph g) a b <-> CfgSpec.edge g a b.
Proof.
  intros ND. unfold OrderSpec.edge, CfgSpec.edge, to_graph. assert (S : forall blk, In b (successors blk) <-> cb_jump_to blk = Some b \/ cb_falls_to blk = Some b).
  { intros blk. unfold successors, opt_list. rewrite in_app_iff. destruct (cb_jump_to blk), (cb_falls_to blk); cbn; intuition congruence. }
  split.
  - intros (l & I & J). apply in_map_iff in I as ([x blk] & Q & I). cbn in Q. injection Q as <- <-. exists blk. split; [now apply JumpProps.dict_In|now apply S].
  - intros (blk & L & J). exists (successors blk). split; [|now apply S]. apply in_map_iff. exists (a, blk). split; [reflexivity|]. now apply UtilProps.lookup_In.
Qed.
Lemma graph_nodes g : nodes (to_graph g) = map fst (cl_blocks g).
Proof. unfold nodes, to_graph. rewrite map_map. reflexivity. Qed.

(** The tree built from immediate dominators has the blocks that can be reached as
    nodes.  It is a tree: the start has no parent, the other blocks have one and
    there are no cycles.  There is a way from [a] to [b] in it exactly if every
    walk from the start to [b] goes through [a], and in a topological order a
    block comes after the blocks that dominate it. *)
Theorem dominance_tree_tells_dominance : forall g start idoms, NoDup (map fst (cl_blocks g)) -> idoms_ok (to_graph g) start idoms ->
  let t := dominance_tree start idoms in
  (forall a b, OrderSpec.edge (to_graph g) a b <-> CfgSpec.edge g a b)
  /\ (forall x, In x (dt_nodes t) <-> reachable (to_graph g) start x)
  /\ (forall u, ~ In (u, start) (dt_edges t))
  /\ (forall x, In x (dt_nodes t) -> x <> start -> exists u, In u (dt_nodes t) /\ forall v, In (v, x) (dt_edges t) <-> v = u)
  /\ (forall a b, In a (dt_nodes t) -> In b (dt_nodes t) -> tree_path (dt_edges t) a b -> tree_path (dt_edges t) b a -> a = b)
  /\ (forall a b, In b (dt_nodes t) -> tree_path (dt_edges t) a b <-> dominates (to_graph g) start a b)
  /\ (forall order a b, topological (dt_nodes t) (dt_edges t) order -> In b (dt_nodes t) -> a <> b -> dominates (to_graph g) start a b -> earlier order a b).
Proof.
  intros g start idoms C OK t. assert (TN := tree_nodes (to_graph g) start idoms OK). split; [intros a b; apply graph_edges, C|]. split; [exact TN|]. split.
  { intros u I. apply (edge_dominates _ _ _ OK) in I as (N & _). now apply N. } split.
  { intros x I N. apply TN in I. destruct (has_edge _ _ _ OK x I N) as (u & E). exists u. split.
    - apply TN. apply (edge_dominates _ _ _ OK) in E as (_ & R & _ & D & _). exact (dominator_reachable _ _ _ _ R D).
    - intros v. split; [intros E'; exact (one_parent _ _ _ OK _ _ _ E' E)|intros ->; exact E]. } split.
  { intros a b A B P Q. apply TN in A, B. apply (path_dominates _ _ _ OK) in P; [|exact B]. apply (path_dominates _ _ _ OK) in Q; [|exact A]. exact (dominates_antisym _ _ _ _ B P Q). } split.
  - intros a b B. apply (path_dominates _ _ _ OK). now apply TN.
  - intros order a b T B N D. apply TN in B. eapply dominators_earlier; eauto.
Qed.
Print Assumptions dominance_tree_tells_dominance.

(** The way in the tree from a block to a block that it dominates has exactly the
    dominators of the second that the first dominates, each once.  So the level
    of a block ([compute_block_level], the length of the way from the start) is
    the number of the other blocks that dominate it. *)
Theorem tree_walk_is_dominators : forall g start idoms, idoms_ok (to_graph g) start idoms ->
  let t := dominance_tree start idoms in
  (forall a b, In b (dt_nodes t) -> dominates (to_graph g) start a b <-> exists l, tree_walk (dt_edges t) a l b)
  /\ (forall a l b, In a (dt_nodes t) -> tree_walk (dt_edges t) a l b -> NoDup l /\ forall x, In x l <-> dominates (to_graph g) start a x /\ dominates (to_graph g) start x b)
  /\ (forall l b, tree_walk (dt_edges t) start l b -> NoDup l /\ forall x, In x l <-> dominates (to_graph g) start x b).
Proof.
  intros g start idoms OK t. assert (TN := tree_nodes (to_graph g) start idoms OK). split; [|split].
  - intros a b B. apply TN in B. rewrite <- (path_dominates _ _ _ OK a b B). split; [apply tree_walk_exists|]. intros (l & W). induction W as [|a l b c W IH I]; [apply rt_refl|].
    eapply rt_trans; [apply IH|apply rt_step; exact I]. apply (edge_dominates _ _ _ OK) in I as (_ & R & _ & D & _). exact (dominator_reachable _ _ _ _ R D).
  - intros a l b A W. apply TN in A. apply (tree_walk_nodes _ _ _ OK a l b A W).
  - intros l b W. destruct (tree_walk_nodes _ _ _ OK start l b (start_reachable _ _) W) as (_ & N & M). split; [exact N|]. intros x. rewrite M. split; [tauto|]. intros D. split; [apply start_dominates|exact D].
Qed.
Print Assumptions tree_walk_is_dominators.

(** Every component whose successors are blocks has immediate dominators. *)
Theorem immediate_dominators_exist : forall g start, NoDup (map fst (cl_blocks g)) -> (forall a b, CfgSpec.edge g a b -> In b (map fst (cl_blocks g))) ->
  exists idoms, idoms_ok (to_graph g) start idoms.
Proof.
  intros g start C T. apply idoms_exist; [rewrite graph_nodes; exact C|]. intros u v E. apply (graph_edges g u v C) in E. rewrite graph_nodes. exact (T _ _ E).
Qed.
Print Assumptions immediate_dominators_exist.

(** [remove_block] keeps the copy of the graph (cfg_block_list.py:77-92), so after
    the blocks that cannot be reached are removed the tree may be built from the
    graph before the removal.  It is the same. *)
Theorem removal_keeps_dominators : forall g start, consistent g -> cl_start g = Some start ->
  exists g', remove_blocks_block_list g = Ok g' /\ NoDup (map fst (cl_blocks g')) /\ (forall a b, CfgSpec.edge g' a b -> In b (map fst (cl_blocks g')))
  /\ (forall x, DomSpec.reachable (to_graph g) start x <-> In x (map fst (cl_blocks g')))
  /\ (forall a b, dominates (to_graph g) start a b <-> dominates (to_graph g') start a b)
  /\ (forall idoms, idoms_ok (to_graph g) start idoms <-> idoms_ok (to_graph g') start idoms).
Proof.
  intros g start C S. destruct (RemoveProps.remove_blocks_reachable g start C S) as (g' & E & _ & L & _). exists g'. split; [exact E|].
  assert (ND : NoDup (map fst (cl_blocks g'))).
  { unfold remove_blocks_block_list in E. rewrite S in E. cbn [of_option bind] in E. revert E. generalize (nodes_to_remove g start). pose proof (c_keys _ C) as N. clear L C S. revert N. generalize g. clear g. intros g N l. revert g N.
    induction l as [|x l IH]; intros g N E; cbn [for_each] in E; [injection E as <-; exact N|]. unfold remove_block at 1 in E. destruct (lookup x (cl_blocks g)); cbn [bind] in E; [|discriminate]. eapply IH; [|exact E]. cbn [cl_blocks]. now apply NoDup_del. }
  assert (EG : forall x y, CfgSpec.edge g' x y <-> CfgSpec.edge g x y /\ RemoveProps.reachable g start x).
  { intros x y. split; [intros (b & Lb & Q)|intros [(b & Lb & Q) R]]; [apply L in Lb as [Lb R]; split; [exists b; auto|exact R]|]. exists b. split; [apply L; auto|exact Q]. }
  assert (W1 : forall a l b, DomSpec.walk (to_graph g) a l b -> RemoveProps.reachable g start a -> DomSpec.walk (to_graph g') a l b /\ RemoveProps.reachable g start b).
  { induction 1 as [a|a b l c Ed W IH]; intros R; [split; [constructor|exact R]|]. apply (graph_edges g a b (c_keys _ C)) in Ed. destruct IH as (W' & R'); [eapply rt_trans; [exact R|now apply rt_step]|]. split; [|exact R']. econstructor; [apply (graph_edges g' a b ND), EG; auto|exact W']. }
  assert (W2 : forall a l b, DomSpec.walk (to_graph g') a l b -> DomSpec.walk (to_graph g) a l b).
  { induction 1 as [a|a b l c Ed W IH]; [constructor|]. econstructor; [|exact IH]. apply (graph_edges g a b (c_keys _ C)). apply (graph_edges g' a b ND) in Ed. now apply EG. }
  assert (R0 : RemoveProps.reachable g start start) by apply rt_refl.
  assert (W : forall l b, DomSpec.walk (to_graph g) start l b <-> DomSpec.walk (to_graph g') start l b) by (intros l b; split; [intros H; now apply W1|apply W2]).
  assert (D : forall a b, dominates (to_graph g) start a b <-> dominates (to_graph g') start a b) by (intros a b; split; intros H l Hl; apply H, W; exact Hl).
  assert (R : forall b, DomSpec.reachable (to_graph g) start b <-> DomSpec.reachable (to_graph g') start b) by (intros b; split; intros (l & H); exists l; apply W; exact H).
  assert (M : forall u v, immediate (to_graph g) start u v <-> immediate (to_graph g') start u v) by (intros u v; split; intros (A & B & F); (split; [exact A|]; split; [apply D; exact B|]; intros w N H; apply D; apply F; [exact N|apply D; exact H])).
  assert (K : forall x, In x (map fst (cl_blocks g')) <-> In x (map fst (cl_blocks g)) /\ RemoveProps.reachable g start x).
  { intros x. split.
    - intros I. destruct (key_lookup x _ I) as (b & Lb). apply L in Lb as (Lb & Rb). split; [eapply lookup_In_key; exact Lb|exact Rb].
    - intros (I & Rx). destruct (key_lookup x _ I) as (b & Lb). eapply lookup_In_key. apply L. eauto. }
  assert (Is : In start (map fst (cl_blocks g))) by (destruct (c_start g C) as (s' & Q & I); congruence).
  split; [exact ND|]. split; [intros a b H; apply EG in H as (H & Ra); apply K; split; [exact (edge_target _ _ _ C H)|eapply rt_trans; [exact Ra|now apply rt_step]]|]. split; [|split; [exact D|]].
  - intros x. rewrite K. split.
    + intros (l & H). destruct (W1 _ _ _ H R0) as (_ & Rx). split; [|exact Rx]. apply clos_rt_rtn1 in Rx. destruct Rx as [|y z Ed _]; [exact Is|exact (edge_target _ _ _ C Ed)].
    + intros (_ & Rx). apply clos_rt_rt1n in Rx. clear -C Rx. revert Rx. generalize start. intros s Rx. induction Rx as [s|s y z Ed _ (l & H)]; [exists [s]; constructor|exists (s :: l); econstructor; [apply (graph_edges g s y (c_keys _ C)); exact Ed|exact H]].
  - intros ids. split; intros [A B F]; (split; [exact A|intros u N; rewrite (B u N); apply R || (rewrite <- R; reflexivity)|intros u v I N; apply M; exact (F u v I N)]).
Qed.
Print Assumptions removal_keeps_dominators.

(** There is at most one such dictionary, up to its order and the entry of the start. *)
Theorem immediate_dominator_unique : forall g start u v v', reachable g start u -> immediate g start u v -> immediate g start u v' -> v = v'.
Proof. intros g start u v v' R (N & D & M) (N' & D' & M'). apply (dominates_antisym g start); [exact (dominator_reachable _ _ _ _ R D')|now apply M'|now apply M]. Qed.
Print Assumptions immediate_dominator_unique.

(* --- concrete case --- *)
(** A branch whose sides meet again, followed by a loop on the last block. *)
Definition dom_block (type : string) (jump fall : option string) (from : list string) : cblock :=
  {| cb_instrs := []; cb_type := type; cb_jump_to := jump; cb_falls_to := fall; cb_cond := match jump, fall with Some _, Some _ => Some "c" | _, _ => None end;
     cb_comes_from := from; cb_entries := []; cb_split := None |}.
Definition diamond : clist := {|
  cl_blocks := [("s", dom_block "ConditionalJump" (Some "a") (Some "b") []); ("a", dom_block "Jump" (Some "j") None ["s"; "j"]); ("b", dom_block "Jump" (Some "j") None ["s"]);
    ("j", dom_block "ConditionalJump" (Some "a") (Some "e") ["a"; "b"]); ("e", dom_block "mainExit" None None ["j"]); ("dead", dom_block "mainExit" None None [])];
  cl_start := Some "s"; cl_terminal := ["e"; "dead"]; cl_return := [] |}.
Definition diamond_idoms : list (string * string) := [("s", "s"); ("a", "s"); ("b", "s"); ("j", "s"); ("e", "j")].
Example diamond_tree : consistent diamond /\ idoms_ok (to_graph diamond) "s" diamond_idoms
  /\ dominance_tree "s" diamond_idoms = {| dt_nodes := ["s"; "a"; "b"; "j"; "e"]; dt_edges := [("s", "a"); ("s", "b"); ("s", "j"); ("j", "e")] |}
  /\ topological ["s"; "a"; "b"; "j"; "e"] [("s", "a"); ("s", "b"); ("s", "j"); ("j", "e")] ["s"; "j"; "b"; "e"; "a"].
Proof.
  split; [apply RemoveProps.consistentb_sound; vm_compute; reflexivity|]. split; [|split; [vm_compute; reflexivity|]].
  - set (g := to_graph diamond).
    assert (E : forall x y, existsb (fun e => String.eqb (fst e) x && mem y (snd e)) g = true -> OrderSpec.edge g x y).
    { intros x y H. apply existsb_exists in H as ([u l] & I & H). cbn in H. apply andb_true_iff in H as (H1 & H2). apply String.eqb_eq in H1 as ->. apply mem_In in H2. exists l. auto. }
    assert (Wa : DomSpec.walk g "s" ["s"; "a"] "a") by exact (walk_step g "s" "a" _ _ (E "s" "a" eq_refl) (walk_end g "a")).
    assert (Wb : DomSpec.walk g "s" ["s"; "b"] "b") by exact (walk_step g "s" "b" _ _ (E "s" "b" eq_refl) (walk_end g "b")).
    assert (Wj : DomSpec.walk g "s" ["s"; "a"; "j"] "j") by exact (walk_step g "s" "a" _ _ (E "s" "a" eq_refl) (walk_step g "a" "j" _ _ (E "a" "j" eq_refl) (walk_end g "j"))).
    assert (Wj' : DomSpec.walk g "s" ["s"; "b"; "j"] "j") by exact (walk_step g "s" "b" _ _ (E "s" "b" eq_refl) (walk_step g "b" "j" _ _ (E "b" "j" eq_refl) (walk_end g "j"))).
    assert (We : DomSpec.walk g "s" ["s"; "a"; "j"; "e"] "e") by exact (walk_step g "s" "a" _ _ (E "s" "a" eq_refl) (walk_step g "a" "j" _ _ (E "a" "j" eq_refl) (walk_step g "j" "e" _ _ (E "j" "e" eq_refl) (walk_end g "e")))).
    assert (We' : DomSpec.walk g "s" ["s"; "b"; "j"; "e"] "e") by exact (walk_step g "s" "b" _ _ (E "s" "b" eq_refl) (walk_step g "b" "j" _ _ (E "b" "j" eq_refl) (walk_step g "j" "e" _ _ (E "j" "e" eq_refl) (walk_end g "e")))).
    assert (B : forall x y, OrderSpec.edge g x y -> In (x, y) [("s", "a"); ("s", "b"); ("a", "j"); ("b", "j"); ("j", "a"); ("j", "e")]).
    { intros x y (l & I & J). cbn in I. repeat (destruct I as [Q|I]; [injection Q as <- <-; cbn in J; repeat (destruct J as [<-|J]; [cbn; tauto|]); destruct J|]). destruct I. }
    split; [repeat constructor; cbn; intuition discriminate| |].
    + intros u N. split.
      * intros I. cbn in I. repeat (destruct I as [<-|I]; [try congruence; eexists; eassumption|]). destruct I.
      * intros (l & W). assert (H : forall x l y, DomSpec.walk g x l y -> In x ["s"; "a"; "b"; "j"; "e"] -> In y ["s"; "a"; "b"; "j"; "e"]).
        { clear -B. induction 1 as [|x z l y Ed W IH]; intros I; [exact I|]. apply IH. apply B in Ed. cbn in Ed. repeat (destruct Ed as [Q|Ed]; [injection Q as <- <-; cbn; tauto|]). destruct Ed. }
        exact (H _ _ _ W (or_introl eq_refl)).
    + assert (Dj : DomSpec.dominates g "s" "j" "e").
      { intros l W. assert (H : forall x l y, DomSpec.walk g x l y -> y = "e" -> x = "e" \/ In "j" l).
        { clear -B. induction 1 as [|x z l y Ed W IH]; intros Q; [now left|]. right. destruct (IH Q) as [-> |I]; [|now right]. apply B in Ed. cbn in Ed. repeat (destruct Ed as [P|Ed]; [inversion P; now left|]). destruct Ed. }
        destruct (H _ _ _ W eq_refl) as [Q|I]; [discriminate Q|exact I]. }
      assert (S : forall w, w = "s" -> DomSpec.dominates g "s" w "s") by (intros w ->; apply dominates_refl).
      intros u v I N. cbn in I. repeat (destruct I as [Q|I]; [injection Q as <- <-|]); try destruct I; try congruence; (split; [discriminate|]; split; [first [exact Dj|apply start_dominates]|]); intros w Nw D.
      * apply S. specialize (D _ Wa). cbn in D. intuition congruence.
      * apply S. specialize (D _ Wb). cbn in D. intuition congruence.
      * apply S. pose proof (D _ Wj) as D1. pose proof (D _ Wj') as D2. cbn in D1, D2. intuition congruence.
      * pose proof (D _ We) as D1. pose proof (D _ We') as D2. cbn in D1, D2. assert (Q : w = "s" \/ w = "j") by intuition congruence. destruct Q as [-> | ->]; [apply start_dominates|apply dominates_refl].
  - split; [repeat constructor; cbn; intuition discriminate|]. split; [intros x; cbn; tauto|]. intros u v I. cbn in I. repeat (destruct I as [Q|I]; [injection Q as <- <-|]); try destruct I.
    + exists ["s"], ["j"; "b"; "e"; "a"]. cbn. tauto.
    + exists ["s"], ["j"; "b"; "e"; "a"]. cbn. tauto.
    + exists ["s"], ["j"; "b"; "e"; "a"]. cbn. tauto.
    + exists ["s"; "j"], ["b"; "e"; "a"]. cbn. tauto.
Qed.
Example diamond_way : tree_walk (dt_edges (dominance_tree "s" diamond_idoms)) "s" ["s"; "j"; "e"] "e".
Proof.
  assert (T : forall u v, mem u (map fst (filter (fun e => String.eqb (snd e) v) (dt_edges (dominance_tree "s" diamond_idoms)))) = true -> In (u, v) (dt_edges (dominance_tree "s" diamond_idoms))).
  { intros u v H. apply mem_In, in_map_iff in H as ([a b] & <- & I). apply filter_In in I as (I & Q). apply String.eqb_eq in Q. cbn in Q. subst b. exact I. }
  apply (tree_walk_step _ "s" ["s"; "j"] "j" "e"); [|now apply T]. apply (tree_walk_step _ "s" ["s"] "s" "j"); [constructor|now apply T].
Qed.
