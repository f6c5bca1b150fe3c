(** The removal of unreachable blocks (part of C23's pass) and the concrete cases
    of C22 and C23: instances of the hypotheses, and the graphs on which the
    actions fail or leave stale links. *)
From Coq Require Import Relations.
From Verif Require Import Base UtilModel UtilProps UnifyProps LiveModel CfgModel CfgSpec CfgProps CombineProps MergePassProps.
Open Scope string_scope. Open Scope list_scope.

Definition reachable (g : clist) (s x : string) : Prop := clos_refl_trans string (edge g) s x.

Definition round (g : clist) (s : list string) : list string := nodup string_dec (s ++ flat_map (graph_succs g) s).
Definition closed (g : clist) (s : list string) : Prop := forall x y, In x s -> edge g x y -> In y s.
Lemma In_graph_succs g x y : In y (graph_succs g x) <-> edge g x y.
Proof.
  unfold graph_succs. destruct (lookup x (cl_blocks g)) as [b|] eqn:L.
  - rewrite nodup_In. symmetry. apply edge_succ, L.
  - split; [intros []|]. intros E. apply edge_source, key_lookup in E as (b & E). congruence.
Qed.
Lemma In_round g s x : In x (round g s) <-> In x s \/ exists y, In y s /\ edge g y x.
Proof.
  unfold round. rewrite nodup_In, in_app_iff, in_flat_map. split; intros [H|(y & H1 & H2)]; auto; right; exists y; (split; [exact H1|]); apply In_graph_succs; exact H2.
Qed.
Lemma closed_rounds g n : forall s, closed g s -> closed g (reach_rounds n g s).
Proof.
  induction n as [|n IH]; intros s C; [exact C|]. cbn [reach_rounds]. apply IH. fold (round g s). intros x y H E. apply In_round. left.
  apply In_round in H as [H|(z & H & Ez)]; [eapply C; eauto|]. eapply C; [|exact E]. eapply C; eauto.
Qed.
Lemma rounds_closed g : consistent g -> forall n s, NoDup s -> incl s (map fst (cl_blocks g)) -> length (cl_blocks g) <= n + length s -> closed g (reach_rounds n g s).
Proof.
  intros C. induction n as [|n IH]; intros s N I L.
  - intros x y H E. simpl in *. assert (J : incl (map fst (cl_blocks g)) s) by (apply NoDup_length_incl; [exact N|rewrite map_length; exact L|exact I]). apply J. eapply edge_target; eauto.
  - cbn [reach_rounds]. fold (round g s). assert (N' : NoDup (round g s)) by apply NoDup_nodup.
    assert (IS : incl s (round g s)) by (intros x H; apply In_round; auto).
    destruct (le_lt_dec (length (round g s)) (length s)) as [LE|GT].
    + apply closed_rounds. assert (J := NoDup_length_incl N LE IS). intros x y H E. apply IS, J. apply In_round. right. exists x. auto.
    + apply IH; [exact N'| |lia]. intros x H. apply In_round in H as [H|(y & H & E)]; [auto|]. eapply edge_target; eauto.
Qed.
Lemma rounds_reachable g : forall n s x, In x (reach_rounds n g s) -> exists y, In y s /\ reachable g y x.
Proof.
  induction n as [|n IH]; intros s x H; [exists x; split; [exact H|apply rt_refl]|]. cbn [reach_rounds] in H. fold (round g s) in H. apply IH in H as (y & H & R).
  apply In_round in H as [H|(z & H & E)]; [eauto|]. exists z. split; [exact H|]. eapply rt_trans; [apply rt_step; exact E|exact R].
Qed.
Lemma rounds_incl g : forall n s, incl s (reach_rounds n g s).
Proof. induction n as [|n IH]; intros s x H; [exact H|]. cbn [reach_rounds]. apply IH. fold (round g s). apply In_round. auto. Qed.
Lemma rounds_exact g s x : consistent g -> In s (map fst (cl_blocks g)) -> In x (reach_rounds (length (cl_blocks g)) g [s]) <-> reachable g s x.
Proof.
  intros C I. split; [intros H; apply rounds_reachable in H as (y & [<-|[]] & R); exact R|].
  intros R. assert (K : closed g (reach_rounds (length (cl_blocks g)) g [s])).
  { apply rounds_closed; auto; [repeat constructor; simpl; tauto|intros z [<-|[]]; exact I|simpl; lia]. }
  assert (G : In s (reach_rounds (length (cl_blocks g)) g [s])) by (apply rounds_incl; simpl; auto).
  revert K G. generalize (reach_rounds (length (cl_blocks g)) g [s]). intros S K. clear I. induction R as [x y E|x|x y z _ IH1 _ IH2]; auto. intros G. eapply K; eauto.
Qed.

Lemma remove_many : forall l g, NoDup l -> (forall x, In x l -> In x (map fst (cl_blocks g))) -> (forall s, cl_start g = Some s -> ~ In s l) ->
  exists g', for_each (fun g x => remove_block x g) l g = Ok g' /\ (forall x, lookup x (cl_blocks g') = if mem x l then None else lookup x (cl_blocks g))
    /\ cl_start g' = cl_start g /\ (NoDup (map fst (cl_blocks g)) -> NoDup (map fst (cl_blocks g')))
    /\ (forall x, In x (cl_terminal g') <-> In x (cl_terminal g) /\ ~ In x l) /\ (forall x, In x (cl_return g') <-> In x (cl_return g) /\ ~ In x l).
Proof.
  induction l as [|z l IH]; intros g N K S; [exists g; simpl; repeat split; auto; tauto|]. inversion N as [|? ? Nz N']; subst.
  cbn [for_each]. unfold remove_block at 1. destruct (key_lookup z _ (K z (or_introl eq_refl))) as (b & L). rewrite L. cbn [bind].
  match goal with |- context [for_each _ l ?h] => set (g1 := h) end.
  assert (S1 : cl_start g1 = cl_start g). { unfold g1; cbn [cl_start]. destruct (cl_start g) as [s|] eqn:Q; [|reflexivity]. simpl. destruct (String.eqb_spec z s); [|reflexivity]. exfalso. apply (S s eq_refl). simpl; auto. }
  destruct (IH g1) as (g' & E & LG & ST & ND & TE & RE); [exact N'| | |].
  - intros x Ix. destruct (key_lookup x _ (K x (or_intror Ix))) as (bx & Lx). apply (lookup_In_key _ bx). unfold g1; cbn [cl_blocks]. rewrite lookup_del. destruct (String.eqb_spec z x); [congruence|exact Lx].
  - intros s Q I. rewrite S1 in Q. apply (S s Q). simpl; auto.
  - exists g'. split; [exact E|]. split; [|split; [congruence|split]].
    + intros x. rewrite LG. unfold g1; cbn [cl_blocks]. rewrite lookup_del. change (mem x (z :: l)) with (String.eqb x z || mem x l)%bool. destruct (String.eqb_spec z x), (String.eqb_spec x z); try congruence; destruct (mem x l); reflexivity.
    + intros Q. apply ND. unfold g1; cbn [cl_blocks]. apply NoDup_del, Q.
    + assert (W : forall y x, In x (without z y) <-> In x y /\ x <> z) by (intros; apply without_In).
      split; intros x; [rewrite TE|rewrite RE]; unfold g1; cbn [cl_terminal cl_return]; rewrite W; simpl; intuition.
Qed.

Lemma walk_reachable g : forall p s x, walk g (s :: p) -> In x (s :: p) -> reachable g s x.
Proof.
  induction p as [|y p IH]; intros s x W I; [destruct I as [<-|[]]; apply rt_refl|]. destruct W as [E W]. destruct I as [<-|I]; [apply rt_refl|].
  eapply rt_trans; [apply rt_step; exact E|]. apply IH; auto.
Qed.

(** Exactly the blocks that the start block reaches are kept, with their code and
    successors, and no execution changes.  (The predecessors listed in the kept
    blocks are another matter: [remove_stale_predecessor_refuted].) *)
Theorem remove_blocks_reachable : forall g s, consistent g -> cl_start g = Some s ->
  exists g', remove_blocks_block_list g = Ok g' /\ cl_start g' = Some s
  /\ (forall x b, lookup x (cl_blocks g') = Some b <-> lookup x (cl_blocks g) = Some b /\ reachable g s x)
  /\ (forall x, In x (cl_terminal g') <-> has_type ["FunctionReturn"; "mainExit"; "terminal"] g' x)
  /\ (forall x, In x (cl_return g') <-> has_type ["FunctionReturn"] g' x)
  /\ equivalent g g'.
Proof.
  intros g s C Hs. assert (Is : In s (map fst (cl_blocks g))) by (destruct (c_start g C) as (s' & Q & I); congruence).
  unfold remove_blocks_block_list. rewrite Hs. cbn [of_option bind].
  assert (NR : forall x, In x (nodes_to_remove g s) <-> In x (map fst (cl_blocks g)) /\ ~ reachable g s x).
  { intros x. unfold nodes_to_remove. rewrite filter_In, negb_true_iff. rewrite <- (rounds_exact g s x C Is). rewrite <- (mem_In x (reach_rounds _ _ _)). destruct (mem x (reach_rounds (length (cl_blocks g)) g [s])); intuition congruence. }
  destruct (remove_many (nodes_to_remove g s) g) as (g' & E & LG & ST & ND & TE & RE).
  - unfold nodes_to_remove. apply NoDup_filter, (c_keys g C).
  - intros x H. apply NR in H. apply H.
  - intros s' Q H. rewrite Hs in Q. injection Q as <-. apply NR in H as [_ H]. apply H, rt_refl.
  - exists g'. split; [exact E|]. split; [congruence|].
    assert (L : forall x b, lookup x (cl_blocks g') = Some b <-> lookup x (cl_blocks g) = Some b /\ reachable g s x).
    { intros x b. rewrite LG. destruct (mem x (nodes_to_remove g s)) eqn:M.
      - apply mem_In, NR in M as [_ M]. split; [discriminate|tauto].
      - split; [|tauto]. intros L. split; [exact L|]. apply (rounds_exact g s x C Is). destruct (in_dec string_dec x (reach_rounds (length (cl_blocks g)) g [s])); [assumption|].
        exfalso. assert (Q : In x (nodes_to_remove g s)) by (apply NR; split; [eapply lookup_In_key; eauto|rewrite <- (rounds_exact g s x C Is); assumption]). apply mem_In in Q. congruence. }
    assert (HT : forall types x, has_type types g' x <-> has_type types g x /\ ~ In x (nodes_to_remove g s)).
    { intros types x. unfold has_type. split.
      - intros (b & Lb & T). apply L in Lb as [Lb R]. split; [eauto|]. rewrite NR. tauto.
      - intros [(b & Lb & T) N]. exists b. split; [|exact T]. apply L. split; [exact Lb|]. rewrite <- (rounds_exact g s x C Is).
        destruct (in_dec string_dec x (reach_rounds (length (cl_blocks g)) g [s])) as [?|Q]; [assumption|]. exfalso. apply N, NR. split; [eapply lookup_In_key; eauto|]. rewrite <- (rounds_exact g s x C Is). exact Q. }
    split; [exact L|]. split; [intros x; rewrite TE, HT, (c_terminal g C); reflexivity|]. split; [intros x; rewrite RE, HT, (c_return g C); reflexivity|].
    assert (EG : forall x y, edge g' x y <-> edge g x y /\ reachable g s x).
    { intros x y. split; [intros (b & Lb & Q)|intros [(b & Lb & Q) R]]; [apply L in Lb as [Lb R]; split; [exists b; auto|exact R]|]. exists b. split; [apply L; auto|exact Q]. }
    assert (AB : forall x, reachable g s x -> lookup x (cl_blocks g') = lookup x (cl_blocks g)).
    { intros x R. destruct (lookup x (cl_blocks g)) as [b|] eqn:Q; [apply L; auto|]. destruct (lookup x (cl_blocks g')) as [b|] eqn:Q'; [|reflexivity]. apply L in Q' as [Q' _]. congruence. }
    assert (WK : forall p x, reachable g s x -> (walk g (x :: p) <-> walk g' (x :: p))).
    { induction p as [|y p IH]; intros x R.
      - simpl. split; intros H; apply key_lookup in H as (b & H); [apply (lookup_In_key _ b); rewrite AB; auto|apply (lookup_In_key _ b); rewrite <- AB; auto].
      - change (edge g x y /\ walk g (y :: p) <-> edge g' x y /\ walk g' (y :: p)). rewrite EG. split; intros H.
        + destruct H as [H1 H2]. split; [auto|]. apply IH; [|exact H2]. eapply rt_trans; [exact R|apply rt_step; exact H1].
        + destruct H as [[H1 _] H2]. split; [auto|]. apply IH in H2; [exact H2|]. eapply rt_trans; [exact R|apply rt_step; exact H1]. }
    assert (TR : forall p, (forall x, In x p -> reachable g s x) -> trace g' p = trace g p).
    { induction p as [|x p IH]; intros H; [reflexivity|]. cbn [trace]. unfold actions, branch. rewrite (AB x (H x (or_introl eq_refl))). rewrite IH by (intros; apply H; simpl; auto). reflexivity. }
    assert (FS : forall p, from_start g p <-> from_start g' p).
    { intros p. unfold from_start. rewrite ST, Hs. destruct p as [|x p]; [simpl; tauto|]. split; intros [W H]; injection H as ->; (split; [|reflexivity]); apply (WK p s (rt_refl _ _ s)); exact W. }
    assert (FR : forall p, from_start g p -> forall x, In x p -> reachable g s x).
    { intros p [W H] x Ix. rewrite Hs in H. destruct p as [|y p]; [destruct Ix|]. injection H as ->. eapply walk_reachable; eauto. }
    split; intros t; split.
    + intros (p & x & F & T & Q). exists p, x. assert (FRx := FR _ F). split; [apply FS, F|]. split; [intros y Ey; apply EG in Ey as [Ey _]; apply (T y Ey)|]. rewrite TR; auto.
    + intros (p & x & F & T & Q). exists p, x. apply FS in F. assert (FRx := FR _ F). split; [exact F|]. split; [|rewrite <- TR; auto].
      intros y Ey. apply (T y). apply EG. split; [exact Ey|]. apply FRx, in_or_app. simpl; auto.
    + intros (p & u & F & Q). exists p, u. assert (FRx := FR _ F). split; [apply FS, F|]. rewrite TR; auto.
    + intros (p & u & F & Q). exists p, u. apply FS in F. assert (FRx := FR _ F). split; [exact F|]. rewrite <- TR; auto.
Qed.

(** ** Concrete graphs *)
Fixpoint nodupb (l : list string) : bool := match l with [] => true | x :: l' => negb (mem x l') && nodupb l' end.
Lemma nodupb_sound l : nodupb l = true -> NoDup l.
Proof.
  induction l as [|x l IH]; [constructor|]. simpl. rewrite andb_true_iff, negb_true_iff. intros [H1 H2]. constructor; [|auto]. intros I. apply mem_In in I. congruence.
Qed.
Definition consistentb (g : clist) : bool :=
  let keys := map fst (cl_blocks g) in
  nodupb keys
  && forallb (fun kb => forallb (fun x => mem x keys) (successors (snd kb) ++ cb_comes_from (snd kb)) && forallb (fun x => mem x (cb_comes_from (snd kb))) (cb_entries (snd kb))) (cl_blocks g)
  && forallb (fun a => forallb (fun b => Nat.eqb (arrivals g a b) (departures g a b)) keys) keys
  && match cl_start g with Some s => mem s keys | None => false end
  && forallb (fun x => mem x keys) (cl_terminal g ++ cl_return g)
  && forallb (fun kb => Bool.eqb (mem (fst kb) (cl_terminal g)) (mem (cb_type (snd kb)) ["FunctionReturn"; "mainExit"; "terminal"])
                        && Bool.eqb (mem (fst kb) (cl_return g)) (mem (cb_type (snd kb)) ["FunctionReturn"])) (cl_blocks g).

Lemma lookup_In {A} x (v : A) d : lookup x d = Some v -> In (x, v) d.
Proof. induction d as [|[k w] d IH]; simpl; [discriminate|]. destruct (String.eqb_spec k x); [intros H; injection H as ->; subst; auto|auto]. Qed.
Lemma consistentb_sound g : consistentb g = true -> consistent g.
Proof.
  unfold consistentb. rewrite !andb_true_iff. intros (((((H1 & H2) & H3) & H4) & H5) & H6).
  assert (ND := nodupb_sound _ H1).
  rewrite forallb_forall in H2, H3, H5, H6.
  assert (BL : forall x b, lookup x (cl_blocks g) = Some b -> (forall y, In y (successors b) \/ In y (cb_comes_from b) -> In y (map fst (cl_blocks g))) /\ incl (cb_entries b) (cb_comes_from b)).
  { intros x b L. apply lookup_In in L. apply H2 in L. simpl in L. apply andb_true_iff in L as [L1 L2]. rewrite forallb_forall in L1, L2. split.
    - intros y Hy. apply mem_In, L1, in_or_app. tauto.
    - intros y Hy. apply mem_In, L2, Hy. }
  assert (TY : forall (l : list string) types, (forall x, In x l -> In x (map fst (cl_blocks g))) ->
     (forall x b, lookup x (cl_blocks g) = Some b -> mem x l = mem (cb_type b) types) -> forall x, In x l <-> has_type types g x).
  { intros l types I E x. split.
    - intros H. destruct (key_lookup x _ (I x H)) as (b & L). exists b. split; [exact L|]. apply mem_In. rewrite <- (E x b L). apply mem_In, H.
    - intros (b & L & H). apply mem_In. rewrite (E x b L). apply mem_In, H. }
  constructor.
  - exact ND.
  - intros a b. destruct (in_dec string_dec a (map fst (cl_blocks g))) as [Ia|Na], (in_dec string_dec b (map fst (cl_blocks g))) as [Ib|Nb].
    + apply H3 in Ia. rewrite forallb_forall in Ia. apply Ia in Ib. apply Nat.eqb_eq, Ib.
    + rewrite absent_arrivals by auto. unfold departures. destruct (lookup a (cl_blocks g)) as [ba|] eqn:L; [|reflexivity]. symmetry. apply count_zero. intros Q. apply Nb. eapply BL; eauto.
    + rewrite absent_departures by auto. unfold arrivals. destruct (lookup b (cl_blocks g)) as [bb|] eqn:L; [|reflexivity]. apply count_zero. intros Q. apply Na. eapply BL; eauto.
    + rewrite absent_departures, absent_arrivals by auto. reflexivity.
  - intros x b L. eapply BL; eauto.
  - destruct (cl_start g) as [s|]; [|discriminate]. exists s. split; [reflexivity|]. apply mem_In, H4.
  - apply TY; [intros x Hx; apply mem_In, H5, in_or_app; auto|]. intros x b L. apply lookup_In, H6 in L. simpl in L. apply andb_true_iff in L as [L _]. apply Bool.eqb_prop, L.
  - apply TY; [intros x Hx; apply mem_In, H5, in_or_app; auto|]. intros x b L. apply lookup_In, H6 in L. simpl in L. apply andb_true_iff in L as [_ L]. apply Bool.eqb_prop, L.
Qed.

Definition ins (op : string) (inp out : list string) : linstr := {| li_op := op; li_ins := inp; li_outs := out; li_lits := None |}.
Definition jmp (id t : string) (instrs : list linstr) : jblock :=
  {| j_id := id; j_type := "Jump"; j_targets := [t]; j_cond := None; j_returns := []; j_entries := []; j_instrs := instrs |}.
Definition cnd (id c f t : string) (instrs : list linstr) : jblock :=
  {| j_id := id; j_type := "ConditionalJump"; j_targets := [f; t]; j_cond := Some c; j_returns := []; j_entries := []; j_instrs := instrs |}.
Definition fin (id : string) (instrs : list linstr) : jblock :=
  {| j_id := id; j_type := "MainExit"; j_targets := []; j_cond := None; j_returns := []; j_entries := []; j_instrs := instrs |}.
Definition parsed (js : list jblock) : clist := match parse_block_list "" js with Ok g => g | Raise _ => empty_list end.

(** [for { let i := 0 } lt(i, n) { i := add(i, 1) } { sstore(i, i) }], with one
    unreachable block [U] that jumps to the exit. *)
Definition loop_graph : clist := parsed
  [ jmp "E" "H" [ins "calldataload" ["0x00"] ["n"]; ins "mload" ["0x40"] ["m"]];
    cnd "H" "c" "X" "B" [ins "PhiFunction" ["0x00"; "j"] ["i"]; ins "lt" ["n"; "i"] ["c"]];
    jmp "B" "P" [ins "sstore" ["i"; "i"] []];
    jmp "P" "H" [ins "add" ["0x01"; "i"] ["j"]];
    fin "X" [ins "stop" [] []];
    jmp "U" "X" [ins "pop" ["m"] []] ].

Example loop_graph_consistent : consistent loop_graph.
Proof. apply consistentb_sound. vm_compute. reflexivity. Qed.

Lemma keys_cases g (P : string -> cblock -> Prop) : Forall (fun kb => P (fst kb) (snd kb)) (cl_blocks g) -> forall x b, lookup x (cl_blocks g) = Some b -> P x b.
Proof. intros F x b L. apply lookup_In in L. rewrite Forall_forall in F. apply (F _ L). Qed.

(** Splitting [H] after its first instruction. *)
Example loop_graph_splittable : exists b, splittable loop_graph "H" b.
Proof.
  eexists. split; [vm_compute; reflexivity| | | |]; vm_compute.
  - intros [H|[H|[]]]; discriminate.
  - repeat constructor; simpl; intuition discriminate.
  - intuition discriminate.
  - intuition discriminate.
Qed.
Example loop_graph_split : exists g', split_block "H" 0 loop_graph = Ok g' /\ consistent g' /\ equivalent loop_graph g'
  /\ option_map cb_comes_from (lookup "Hf" (cl_blocks g')) = Some ["E"; "P"].
Proof.
  destruct loop_graph_splittable as (b & S). destruct (split_block_preserves_partial _ _ 0 _ loop_graph_consistent S) as (g' & bf & bs & E & C & _).
  exists g'. split; [exact E|]. split; [exact C|]. split; [apply (split_block_equivalent_partial _ _ _ _ _ loop_graph_consistent S E)|].
  vm_compute in E. injection E as <-. reflexivity.
Qed.

(** Merging [B] with [P], and combining the whole graph. *)
Example loop_graph_mergeable : exists b p, mergeable loop_graph "B" "P" b p /\ cb_cond b = None.
Proof.
  destruct (lookup "B" (cl_blocks loop_graph)) as [b|] eqn:LB; [|vm_compute in LB; discriminate].
  destruct (lookup "P" (cl_blocks loop_graph)) as [p|] eqn:LP; [|vm_compute in LP; discriminate].
  exists b, p. assert (Hb := LB). assert (Hp := LP). vm_compute in Hb, Hp. injection Hb as <-. injection Hp as <-.
  split; [|reflexivity]. split; [exact LB|exact LP|discriminate| | | | |vm_compute; discriminate]; simpl.
  - intros x. split; [intros [H|[]]; auto|intros ->; auto].
  - intros x [H|[]]; auto.
  - intros [H|[]]; discriminate.
  - repeat constructor; simpl; tauto.
Qed.
Example loop_graph_tidy : tidy loop_graph.
Proof.
  split.
  - apply (keys_cases loop_graph (fun _ b => NoDup (successors b))). vm_compute. repeat constructor; simpl; intuition discriminate.
  - apply (keys_cases loop_graph (fun _ b => cb_cond b <> None -> length (successors b) = 2)). vm_compute. repeat constructor; simpl; congruence.
Qed.
Lemma edges_cases g (P : string -> string -> Prop) : Forall (fun kb => Forall (P (fst kb)) (successors (snd kb))) (cl_blocks g) -> forall x y, edge g x y -> P x y.
Proof.
  intros F x y E. destruct (key_lookup x _ (edge_source _ _ _ E)) as (b & L). apply (edge_succ g x y b L) in E. apply lookup_In in L. rewrite Forall_forall in F.
  specialize (F _ L). rewrite Forall_forall in F. apply F, E.
Qed.
Lemma loop_graph_alone : forall x y, alone loop_graph x y -> x = "B" /\ y = "P".
Proof.
  intros x y (E & S & P). assert (Q : (x, y) = ("E", "H") \/ (x, y) = ("H", "B") \/ (x, y) = ("H", "X") \/ (x, y) = ("B", "P") \/ (x, y) = ("P", "H") \/ (x, y) = ("U", "X")).
  { clear S P. revert x y E. apply (edges_cases loop_graph (fun x y => (x, y) = ("E", "H") \/ (x, y) = ("H", "B") \/ (x, y) = ("H", "X") \/ (x, y) = ("B", "P") \/ (x, y) = ("P", "H") \/ (x, y) = ("U", "X"))).
    vm_compute. repeat first [apply Forall_nil | apply Forall_cons]; auto 10. }
  assert (E1 : edge loop_graph "H" "B") by (eexists; split; [vm_compute; reflexivity|simpl; auto]).
  assert (E2 : edge loop_graph "H" "X") by (eexists; split; [vm_compute; reflexivity|simpl; auto]).
  assert (E3 : edge loop_graph "E" "H") by (eexists; split; [vm_compute; reflexivity|simpl; auto]).
  assert (E4 : edge loop_graph "P" "H") by (eexists; split; [vm_compute; reflexivity|simpl; auto]).
  destruct Q as [Q|[Q|[Q|[Q|[Q|Q]]]]]; injection Q as -> ->; [apply P in E4|apply S in E2|apply S in E1| |apply P in E3|apply P in E2]; try discriminate. auto.
Qed.
Example loop_graph_combined : exists g', combine_blocks_block_list [] [] loop_graph = Ok g' /\ consistent g' /\ equivalent loop_graph g'
  /\ map fst (cl_blocks g') = ["E"; "H"; "X"; "U"; "B"].
Proof.
  destruct (combine_blocks_preserves_partial [] [] loop_graph loop_graph_consistent loop_graph_tidy) as (g' & E & C & _ & Q & _).
  - intros s x H. vm_compute in H. injection H as <-. revert x. intros x E. assert (Z : "E" <> "E"); [|congruence]. revert x E.
    assert (K := edges_cases loop_graph (fun _ y => y <> "E")). intros x E. apply (K) with (x := x) (y := "E") in E; [exact E|]. vm_compute. repeat constructor; discriminate.
  - assert (K : forall a b, clos_trans string (alone loop_graph) a b -> a = "B" /\ b = "P").
    { induction 1 as [a b H|a b c _ [-> ->] _ [H ?]]; [apply loop_graph_alone, H|discriminate]. }
    intros a b H. apply K in H as [-> ->]. assert (Z := edges_cases loop_graph (fun x y => (x, y) <> ("P", "B"))). intros E. apply Z in E; [congruence|]. vm_compute. repeat constructor; discriminate.
  - exists g'. split; [exact E|]. split; [exact C|]. split; [exact Q|]. vm_compute in E. injection E as <-. reflexivity.
Qed.

(** ** Where C22 fails *)
(** A block whose two targets coincide cannot be split: after the first target
    has been updated the second update finds nothing to replace. *)
Definition twin_graph : clist := parsed
  [ cnd "A" "c" "X" "X" [ins "lt" ["0x00"; "0x01"] ["c"]; ins "pop" ["c"] []]; fin "X" [] ].
Theorem split_coinciding_targets_refuted : consistent twin_graph /\ split_block "A" 0 twin_graph = Raise AssertionError.
Proof. split; [apply consistentb_sound|]; vm_compute; reflexivity. Qed.

(** A block that jumps to itself cannot be split. *)
Definition self_graph : clist := (* consistent variant of the parser's output: the self edge is listed *)
  let g := parsed [ jmp "E" "A" []; cnd "A" "c" "X" "A" [ins "mload" ["0x00"] ["c"]; ins "pop" ["c"] []]; fin "X" [] ] in
  match lookup "A" (cl_blocks g) with Some b => put_block "A" (set_comes_from ["E"; "A"] b) g | None => g end.
Theorem split_self_loop_refuted : consistent self_graph /\ split_block "A" 0 self_graph = Raise OtherError
  /\ split_block "A" 0 (parsed [ jmp "E" "A" []; cnd "A" "c" "X" "A" [ins "mload" ["0x00"] ["c"]; ins "pop" ["c"] []]; fin "X" [] ]) = Raise AssertionError.
Proof. split; [apply consistentb_sound; vm_compute; reflexivity|]. split; vm_compute; reflexivity. Qed.

(** The name of a half may be the name of another block, which is then lost:
    splitting ["A"] destroys the code of the block ["Af"]. *)
Definition clash_graph : clist := parsed
  [ jmp "A" "Af" [ins "mload" ["0x00"] ["c"]; ins "pop" ["c"] []]; fin "Af" [ins "stop" [] []] ].
Theorem split_name_clash_refuted : consistent clash_graph /\ exists g', split_block "A" 0 clash_graph = Ok g' /\ ~ equivalent clash_graph g'.
Proof.
  split; [apply consistentb_sound; vm_compute; reflexivity|]. eexists. split; [vm_compute; reflexivity|].
  intros [R _]. assert (Q : runs clash_graph [Do (ins "mload" ["0x00"] ["c"]); Do (ins "pop" ["c"] []); Do (ins "stop" [] [])]).
  { exists ["A"], "Af". split; [split; [|reflexivity]|split; [|reflexivity]].
    - split; [eexists; split; [vm_compute; reflexivity|simpl; auto]|vm_compute; auto].
    - intros y (b & L & H). vm_compute in L. injection L as <-. destruct H; discriminate. }
  apply R in Q. destruct Q as (p & x & [W H] & T & Z).
  match type of W with walk ?h _ => assert (N : forall y blk, lookup y (cl_blocks h) = Some blk -> ~ In (ins "stop" [] []) (cb_instrs blk)) end.
  { intros y blk L I. apply lookup_In in L. vm_compute in L. destruct L as [L|[L|[]]]; injection L as <- <-; simpl in I; intuition discriminate. }
  match type of W with walk ?h _ => assert (M : forall q, ~ In (Do (ins "stop" [] [])) (trace h q)) end.
  { induction q as [|y q IH]; [auto|]. cbn [trace]. rewrite in_app_iff. intros [I|I].
    - unfold actions in I. destruct (lookup y _) eqn:L; [|destruct I]. apply in_map_iff in I as (i & I1 & I2). injection I1 as ->. apply (N _ _ L I2).
    - destruct q as [|z q]; [destruct I|]. apply in_app_iff in I as [I|I]; [|auto]. unfold branch in I. destruct (lookup y _); [|destruct I]. destruct (cb_cond _); [|destruct I]. destruct I as [I|[]]; discriminate. }
  apply (M (p ++ [x])). rewrite Z. simpl; auto.
Qed.

(** ** Where C23 fails *)
(** Merging the two blocks of an infinite loop leaves the removed block among the
    predecessors of the merged one. *)
Definition ring_graph : clist := parsed [ jmp "E" "A" []; jmp "A" "B" [ins "mload" ["0x00"] ["c"]]; jmp "B" "A" [ins "sstore" ["c"; "c"] []] ].
Theorem merge_loop_refuted : consistent ring_graph /\ exists g', combine_blocks_block_list [] [] ring_graph = Ok g' /\ ~ consistent g'
  /\ exists b, lookup "A" (cl_blocks g') = Some b /\ In "B" (cb_comes_from b) /\ lookup "B" (cl_blocks g') = None.
Proof.
  split; [apply consistentb_sound; vm_compute; reflexivity|]. eexists. split; [vm_compute; reflexivity|]. split.
  - intros C. assert (Q := c_links _ C "B" "A"). vm_compute in Q. discriminate.
  - eexists. split; [vm_compute; reflexivity|]. split; [simpl; auto|vm_compute; reflexivity].
Qed.
(** A loop through the start block leaves the list without a start block. *)
Definition start_loop_graph : clist := parsed [ jmp "S" "B" [ins "mload" ["0x00"] ["c"]]; cnd "B" "c" "S" "X" []; fin "X" [] ].
Theorem merge_start_refuted : consistent start_loop_graph /\ merge_blocks "S" "B" start_loop_graph <> Raise AssertionError
  /\ exists g', combine_blocks_block_list [] [] start_loop_graph = Ok g' /\ ~ consistent g'.
Proof.
  split; [apply consistentb_sound; vm_compute; reflexivity|]. split; [vm_compute; discriminate|]. eexists. split; [vm_compute; reflexivity|].
  intros C. assert (Q := c_links _ C "B" "S"). vm_compute in Q. discriminate.
Qed.
(** An unreachable block that only jumps to itself makes the pass raise. *)
Definition dead_self_graph : clist := parsed [ fin "E" []; jmp "D" "D" [] ].
Theorem merge_with_itself_refuted : combine_blocks_block_list [] [] dead_self_graph = Raise AssertionError.
Proof. vm_compute. reflexivity. Qed.
(** A block whose successor has coinciding targets cannot be merged with it. *)
Definition twin_target_graph : clist := parsed [ jmp "E" "A" []; cnd "A" "c" "X" "X" []; fin "X" [] ].
Theorem merge_coinciding_targets_refuted : consistent twin_target_graph /\ combine_blocks_block_list [] [] twin_target_graph = Raise AssertionError.
Proof. split; [apply consistentb_sound|]; vm_compute; reflexivity. Qed.

(** The removal of unreachable blocks leaves them among the predecessors of the
    blocks they jumped to. *)
Theorem remove_stale_predecessor_refuted : consistent loop_graph /\ exists g' b, remove_blocks_block_list loop_graph = Ok g'
  /\ lookup "X" (cl_blocks g') = Some b /\ In "U" (cb_comes_from b) /\ lookup "U" (cl_blocks g') = None.
Proof. split; [exact loop_graph_consistent|]. eexists; eexists. split; [vm_compute; reflexivity|]. split; [vm_compute; reflexivity|]. split; [simpl; auto|vm_compute; reflexivity]. Qed.

Print Assumptions split_block_preserves_partial.
Print Assumptions split_block_walks.
Print Assumptions split_block_equivalent_partial.
Print Assumptions merge_blocks_preserves_partial.
Print Assumptions merge_blocks_walks.
Print Assumptions merge_blocks_equivalent_partial.
Print Assumptions search_fuel.
Print Assumptions combine_blocks_preserves_partial.
Print Assumptions remove_blocks_reachable.
Print Assumptions split_coinciding_targets_refuted.
Print Assumptions split_self_loop_refuted.
Print Assumptions split_name_clash_refuted.
Print Assumptions merge_loop_refuted.
Print Assumptions merge_start_refuted.
Print Assumptions merge_with_itself_refuted.
Print Assumptions merge_coinciding_targets_refuted.
Print Assumptions remove_stale_predecessor_refuted.
