(** C35: back edges and natural loops. *)
From Coq Require Import Relations Sorting.Permutation.
From Verif Require Import Base UtilModel UtilProps WebProps GraphModel.
Open Scope string_scope. Open Scope list_scope.

(* --- specification --- *)
Definition edge (g : dgraph) (u v : string) : Prop := exists ss, In (u, ss) g /\ In v ss.
Record well_formed (g : dgraph) : Prop := {
  wf_nodes : NoDup (nodes g);
  wf_edges : forall u v, edge g u v -> In v (nodes g)
}.
Definition acyclic_graph (E : string -> string -> Prop) : Prop := forall x, ~ clos_trans string E x x.
Definition reaches (g : dgraph) : string -> string -> Prop := clos_refl_trans string (edge g).

(* --- basic lemmas --- *)
Lemma mem_In x l : mem x l = true <-> In x l.
Proof.
  unfold mem. rewrite existsb_exists. split; [intros (y & I & E); apply String.eqb_eq in E; now subst|].
  intros I. exists x. split; [exact I|apply String.eqb_refl].
Qed.
Lemma mem_false x l : mem x l = false <-> ~ In x l.
Proof. rewrite <- mem_In. destruct (mem x l); split; congruence. Qed.
Lemma successors_edge g u v : well_formed g -> (In v (successors g u) <-> edge g u v).
Proof.
  intros W. unfold successors, edge. split.
  - destruct (lookup u g) as [ss|] eqn:L; [|intros []]. intros I. apply lookup_In in L. eauto.
  - intros (ss & I & Iv). destruct (lookup u g) as [ss'|] eqn:L.
    + apply lookup_In in L. assert (ss = ss'); [|now subst]. pose proof (wf_nodes _ W) as N. unfold nodes in N. clear - N I L.
      induction g as [|[k s] g IH]; [destruct I|]. simpl in N. inversion N as [|? ? N1 N2]; subst.
      destruct I as [I|I]; destruct L as [L|L].
      * congruence.
      * exfalso. apply N1. injection I as -> ->. apply in_map_iff. exists (u, ss'). auto.
      * exfalso. apply N1. injection L as -> ->. apply in_map_iff. exists (u, ss). auto.
      * auto.
    + apply lookup_None in L. exfalso. apply L. apply in_map_iff. exists (u, ss). auto.
Qed.

Definition unvisited (g : dgraph) (vis : list string) : nat := length (filter (fun n => negb (mem n vis)) (nodes g)).
Lemma filter_le {A} (f h : A -> bool) l : (forall x, In x l -> f x = true -> h x = true) -> length (filter f l) <= length (filter h l).
Proof.
  induction l as [|x l IH]; simpl; intros H; [lia|]. assert (IH' := IH (fun y Iy => H y (or_intror Iy))).
  specialize (H x (or_introl eq_refl)). destruct (f x); destruct (h x); simpl; try lia; discriminate (H eq_refl).
Qed.
Lemma filter_lt {A} (f h : A -> bool) l a : (forall x, In x l -> f x = true -> h x = true) -> In a l -> f a = false -> h a = true ->
  length (filter f l) < length (filter h l).
Proof.
  induction l as [|x l IH]; simpl; intros H I Fa Ha; [destruct I|].
  assert (L := filter_le f h l (fun y Iy => H y (or_intror Iy))). destruct I as [->|I].
  - rewrite Fa, Ha. simpl. lia.
  - specialize (IH (fun y Iy => H y (or_intror Iy)) I Fa Ha). specialize (H x (or_introl eq_refl)).
    destruct (f x); destruct (h x); simpl; try lia; discriminate (H eq_refl).
Qed.
Lemma unvisited_le g v v' : incl v v' -> unvisited g v' <= unvisited g v.
Proof.
  intros I. apply filter_le. intros x _ H. apply negb_true_iff in H. apply negb_true_iff. apply mem_false. apply mem_false in H. auto.
Qed.
Lemma unvisited_lt g v u : In u (nodes g) -> ~ In u v -> unvisited g (u :: v) < unvisited g v.
Proof.
  intros I N. apply filter_lt with (a := u); auto.
  - intros x _ H. apply negb_true_iff in H. apply negb_true_iff. apply mem_false. apply mem_false in H. simpl in H. auto.
  - apply negb_false_iff. apply mem_In. simpl. auto.
  - apply negb_true_iff. now apply mem_false.
Qed.

(** [fin]: finished nodes, the most recent first. *)
Record dinv (g : dgraph) (fin : list string) (st : dfs_state) : Prop := {
  di_vis : forall x, In x (d_visited st) <-> In x fin \/ In x (d_stack st);
  di_nodup : NoDup (fin ++ d_stack st);
  di_order : forall l1 x l2, fin = l1 ++ x :: l2 -> forall y, edge g x y -> In (x, y) (d_back st) \/ In y l2;
  di_back : forall a b, In (a, b) (d_back st) -> edge g a b /\ reaches g b a
}.

Lemma remove_head (u : string) s : ~ In u s -> filter (fun x => negb (String.eqb x u)) (u :: s) = s.
Proof.
  intros N. simpl. rewrite String.eqb_refl. simpl. induction s as [|x s IH]; [reflexivity|]. simpl in *.
  destruct (String.eqb_spec x u) as [->|Nx]; [exfalso; auto|]. simpl. f_equal. auto.
Qed.

Lemma dfs_spec g : well_formed g -> forall fuel st fin u, dinv g fin st -> ~ In u (d_visited st) -> In u (nodes g) ->
  (forall x, In x (d_stack st) -> reaches g x u) -> unvisited g (d_visited st) <= fuel ->
  exists st' l, dfs fuel g st u = Ok st' /\ dinv g (l ++ fin) st' /\ d_stack st' = d_stack st /\ In u l
    /\ incl (d_visited st) (d_visited st') /\ incl (d_back st) (d_back st').
Proof.
  intros W. induction fuel as [|fuel IH]; intros st fin u I Nu Hu Rs Lf.
  { pose proof (unvisited_lt g (d_visited st) u Hu Nu). lia. }
  cbn [dfs]. set (step := fun (st : dfs_state) (v : string) => _).
  assert (G : forall vs st fin stk, dinv g fin st -> d_stack st = u :: stk -> (forall x, In x (d_stack st) -> reaches g x u) ->
     (forall v, In v vs -> edge g u v) -> unvisited g (d_visited st) <= fuel ->
     exists st' l, for_each step vs st = Ok st' /\ dinv g (l ++ fin) st' /\ d_stack st' = d_stack st
       /\ (forall v, In v vs -> In (u, v) (d_back st') \/ In v (l ++ fin))
       /\ incl (d_visited st) (d_visited st') /\ incl (d_back st) (d_back st')).
  { clear - IH W. induction vs as [|v vs IHv]; intros st fin stk I Es Rs Hv Lf; cbn [for_each].
    - exists st, []. split; [reflexivity|]. split; [exact I|]. split; [reflexivity|]. split; [intros v []|]. split; intros x; auto.
    - assert (Ev := Hv v (or_introl eq_refl)).
      assert (S : exists st1 l1, step st v = Ok st1 /\ dinv g (l1 ++ fin) st1 /\ d_stack st1 = d_stack st
         /\ (In (u, v) (d_back st1) \/ In v (l1 ++ fin)) /\ incl (d_visited st) (d_visited st1) /\ incl (d_back st) (d_back st1)).
      { unfold step. destruct (mem v (d_visited st)) eqn:Mv; cbn [negb].
        - apply mem_In in Mv. destruct (mem v (d_stack st)) eqn:Ms.
          + apply mem_In in Ms. eexists. exists []. split; [reflexivity|]. cbn [d_visited d_stack d_back app].
            destruct I as [V N O B]. split; [constructor; cbn [d_visited d_stack d_back]; auto|].
            * intros l1 x l2 E y Exy. destruct (O l1 x l2 E y Exy); [left; apply in_app_iff; auto|auto].
            * intros a b H. apply in_app_iff in H as [H|[H|[]]]; [auto|]. injection H as <- <-. split; [exact Ev|]. apply Rs. exact Ms.
            * split; [reflexivity|]. split; [left; apply in_app_iff; simpl; auto|]. split; intros x Hx; auto. apply in_app_iff; auto.
          + apply mem_false in Ms. exists st, []. split; [reflexivity|]. split; [exact I|]. split; [reflexivity|]. split.
            * right. apply (di_vis _ _ _ I) in Mv. simpl. tauto.
            * split; intros x; auto.
        - apply mem_false in Mv. destruct (IH st fin v I Mv (wf_edges _ W _ _ Ev)) as (st1 & l1 & E1 & I1 & S1 & U1 & V1 & B1).
          + intros x Hx. eapply rt_trans; [apply Rs; exact Hx|apply rt_step; exact Ev].
          + exact Lf.
          + exists st1, l1. split; [exact E1|]. split; [exact I1|]. split; [exact S1|]. split; [right; apply in_app_iff; auto|auto]. }
      destruct S as (st1 & l1 & E1 & I1 & S1 & P1 & V1 & B1). rewrite E1. cbn [bind].
      destruct (IHv st1 (l1 ++ fin) stk I1) as (st2 & l2 & E2 & I2 & S2 & P2 & V2 & B2).
      + congruence.
      + rewrite S1. exact Rs.
      + intros w Hw. apply Hv. right. exact Hw.
      + pose proof (unvisited_le g _ _ V1). lia.
      + exists st2, (l2 ++ l1). rewrite <- app_assoc. split; [exact E2|]. split; [exact I2|]. split; [congruence|]. split.
        * intros w [<-|Hw]; [|auto]. destruct P1 as [P1|P1]; [left; auto|]. right. apply in_app_iff. auto.
        * split; intros x Hx; auto. }
  assert (Nf : ~ In u fin /\ ~ In u (d_stack st)) by (split; intros H; apply Nu, (di_vis _ _ _ I); auto).
  destruct (G (successors g u) {| d_visited := u :: d_visited st; d_stack := u :: d_stack st; d_back := d_back st |} fin (d_stack st))
    as (st1 & l & E1 & I1 & S1 & P1 & V1 & B1); cbn [d_visited d_stack d_back].
  - destruct I as [V N O B]. constructor; cbn [d_visited d_stack d_back]; auto.
    + intros x. simpl. rewrite V. tauto.
    + apply NoDup_Add with (a := u) (l := fin ++ d_stack st); [apply Add_app|]. split; [exact N|]. rewrite in_app_iff. tauto.
  - reflexivity.
  - intros x [<-|Hx]; [apply rt_refl|auto].
  - intros v Hv. apply (successors_edge g u v W). exact Hv.
  - pose proof (unvisited_lt g (d_visited st) u Hu Nu). lia.
  - cbn [d_visited d_stack d_back] in *. rewrite E1. cbn [bind]. eexists. exists (u :: l). split; [reflexivity|].
    rewrite S1. rewrite remove_head by tauto. cbn [d_visited d_stack d_back]. destruct I1 as [V N O B]. rewrite S1 in *.
    split; [|split; [reflexivity|split; [left; reflexivity|split; [intros x Hx; apply V1; right; exact Hx|exact B1]]]].
    constructor; cbn [d_visited d_stack d_back app].
    + intros x. rewrite V. simpl. tauto.
    + apply NoDup_remove in N as [N1 N2]. constructor; assumption.
    + intros l1 x l2 E y Exy. destruct l1 as [|z l1]; simpl in E; injection E as -> E.
      * subst l2. apply P1. apply (successors_edge g x y W). exact Exy.
      * eapply O; eauto.
    + exact B.
Qed.

Lemma find_back_edges_inv g : well_formed g -> exists st fin, find_back_edges g = Ok (d_back st) /\ dinv g fin st
  /\ d_stack st = [] /\ forall x, In x (nodes g) -> In x fin.
Proof.
  intros W. unfold find_back_edges.
  assert (G : forall ns st fin, dinv g fin st -> d_stack st = [] -> (forall n, In n ns -> In n (nodes g)) ->
     exists st' fin', for_each (fun st u => if mem u (d_visited st) then Ok st else dfs (S (length g)) g st u) ns st = Ok st'
       /\ dinv g fin' st' /\ d_stack st' = [] /\ incl fin fin' /\ forall n, In n ns -> In n fin').
  { induction ns as [|n ns IH]; intros st fin I Es Hn; cbn [for_each].
    - exists st, fin. split; [reflexivity|]. split; [exact I|]. split; [exact Es|]. split; [intros x; auto|intros n []].
    - destruct (mem n (d_visited st)) eqn:M.
      + cbn [bind]. destruct (IH st fin I Es) as (st' & fin' & E & I' & S' & F' & N'); [intros; apply Hn; right; auto|].
        exists st', fin'. split; [exact E|]. split; [exact I'|]. split; [exact S'|]. split; [exact F'|].
        intros x [<-|Hx]; [|auto]. apply mem_In, (di_vis _ _ _ I) in M. rewrite Es in M. destruct M as [M|[]]. auto.
      + apply mem_false in M. destruct (dfs_spec g W (S (length g)) st fin n I M) as (st1 & l & E1 & I1 & S1 & U1 & _ & _).
        * apply Hn. left. reflexivity.
        * rewrite Es. intros x [].
        * unfold unvisited. pose proof (filter_le (fun n => negb (mem n (d_visited st))) (fun _ => true) (nodes g) (fun _ _ _ => eq_refl)).
          assert (H0 : forall l : list string, filter (fun _ => true) l = l) by (intros l0; induction l0 as [|a l0 IHl]; simpl; congruence).
          rewrite H0 in H. unfold nodes in H at 2. rewrite map_length in H. lia.
        * rewrite E1. cbn [bind]. destruct (IH st1 (l ++ fin) I1) as (st' & fin' & E & I' & S' & F' & N'); [congruence|intros; apply Hn; right; auto|].
          exists st', fin'. split; [exact E|]. split; [exact I'|]. split; [exact S'|].
          split; [intros x Hx; apply F'; apply in_app_iff; auto|]. intros x [<-|Hx]; [|auto]. apply F'. apply in_app_iff. auto. }
  destruct (G (nodes g) {| d_visited := []; d_stack := []; d_back := [] |} []) as (st & fin & E & I & Es & _ & Hn); auto.
  { constructor; cbn [d_visited d_stack d_back app].
    - simpl. tauto.
    - constructor.
    - intros [|? ?] ? ? Q; discriminate Q.
    - intros a b []. }
  rewrite E. cbn [bind]. exists st, fin. auto.
Qed.

Lemma ordered_acyclic (E : string -> string -> Prop) fin : NoDup fin ->
  (forall x y, E x y -> exists l1 l2, fin = l1 ++ x :: l2 /\ In y l2) -> acyclic_graph E.
Proof.
  intros N H x P.
  assert (G : forall a b, clos_trans string E a b -> exists l1 l2, fin = l1 ++ a :: l2 /\ In b l2).
  { intros a b Q. apply clos_trans_t1n in Q. induction Q as [a b Q|a b c Q _ IH]; [auto|].
    destruct (H a b Q) as (l1 & l2 & E1 & I1). destruct IH as (m1 & m2 & E2 & I2).
    exists l1, l2. split; [exact E1|]. apply in_split in I1 as (k1 & k2 & ->).
    assert (K : l1 ++ a :: k1 = m1 /\ k2 = m2); [|destruct K as [_ ->]; apply in_app_iff; right; right; exact I2].
    rewrite E1 in N, E2. clear - N E2.
    rewrite app_comm_cons, app_assoc in N, E2. revert m1 E2 N. generalize (l1 ++ a :: k1). clear.
    induction l as [|z l IH]; intros [|w m1] E N; simpl in *.
    - injection E as ->. auto.
    - injection E as -> ->. inversion N as [|? ? N1 N2]; subst. exfalso. apply N1. apply in_app_iff. simpl. auto.
    - injection E as -> E. inversion N as [|? ? N1 N2]; subst. exfalso. apply N1. apply in_app_iff. simpl. auto.
    - injection E as -> E. inversion N as [|? ? N1 N2]; subst. destruct (IH m1 E N2). subst. auto. }
  destruct (G x x P) as (l1 & l2 & E1 & I1). rewrite E1 in N. apply NoDup_remove_2 in N. apply N. apply in_app_iff. auto.
Qed.

(** Every reported edge is an edge of the graph that closes a cycle, and what
    remains without them has no cycle. *)
Theorem back_edges_correct : forall g, well_formed g -> exists back, find_back_edges g = Ok back
  /\ (forall u v, In (u, v) back -> edge g u v /\ reaches g v u)
  /\ acyclic_graph (fun u v => edge g u v /\ ~ In (u, v) back).
Proof.
  intros g W. destruct (find_back_edges_inv g W) as (st & fin & E & I & Es & Hn). exists (d_back st). split; [exact E|].
  destruct I as [V N O B]. split; [exact B|]. rewrite Es, app_nil_r in N. apply (ordered_acyclic _ fin N).
  intros x y [Exy Nb]. assert (Ix : In x fin). { apply Hn. destruct Exy as (ss & I & _). apply in_map_iff. exists (x, ss). auto. }
  apply in_split in Ix as (l1 & l2 & ->). exists l1, l2. split; [reflexivity|]. destruct (O l1 x l2 eq_refl y Exy); [contradiction|assumption].
Qed.
Print Assumptions back_edges_correct.

Lemma remove_edges_edge es g u v : edge (remove_edges es g) u v <-> edge g u v /\ ~ In (u, v) es.
Proof.
  unfold edge, remove_edges. split.
  - intros (ss & I & Iv). apply in_map_iff in I as ([k s] & E & I). injection E as <- <-. cbn [fst snd] in *.
    apply filter_In in Iv as [Iv F]. split; [eauto|]. intros H. apply negb_true_iff in F. rewrite <- not_true_iff_false in F. apply F.
    apply existsb_exists. exists (k, v). split; [exact H|]. cbn. now rewrite !String.eqb_refl.
  - intros [(ss & I & Iv) N]. eexists. split; [apply in_map_iff; exists (u, ss); split; [reflexivity|exact I]|]. cbn [fst snd].
    apply filter_In. split; [exact Iv|]. apply negb_true_iff. apply not_true_iff_false. intros H. apply existsb_exists in H as ([a b] & H & E).
    cbn in E. apply andb_true_iff in E as [E1 E2]. apply String.eqb_eq in E1. apply String.eqb_eq in E2. subst. contradiction.
Qed.
(** The graph without backward edges: same nodes, a subset of the edges, no
    cycle; nothing is removed from an acyclic graph. *)
Theorem forward_graph_acyclic : forall g, well_formed g -> exists g', compute_cfg_without_backward_edges g = Ok g'
  /\ nodes g' = nodes g /\ (forall u v, edge g' u v -> edge g u v)
  /\ (forall u v, edge g u v -> ~ reaches g v u -> edge g' u v) /\ acyclic_graph (edge g').
Proof.
  intros g W. destruct (back_edges_correct g W) as (back & E & B & A). unfold compute_cfg_without_backward_edges. rewrite E. cbn [bind].
  eexists. split; [reflexivity|]. split; [|split; [|split]].
  - unfold nodes, remove_edges. rewrite map_map. reflexivity.
  - intros u v H. apply remove_edges_edge in H. tauto.
  - intros u v H N. apply remove_edges_edge. split; [exact H|]. intros Q. apply N. apply (B u v Q).
  - intros x P. apply (A x). clear - P. revert P. generalize x at 1 3 as y. intros y P. induction P as [a b P|a b c P1 IH1 P2 IH2]; [|eapply t_trans; eauto].
    apply t_step. apply remove_edges_edge. exact P.
Qed.
Print Assumptions forward_graph_acyclic.

(* --- natural loops --- *)
(** [n] reaches [u] by a path no node of which is [v]. *)
Inductive reach_avoiding (g : dgraph) (v u : string) : string -> Prop :=
| ra_end : u <> v -> reach_avoiding g v u u
| ra_step n m : n <> v -> edge g n m -> reach_avoiding g v u m -> reach_avoiding g v u n.

Lemma predecessors_edge g n m : In m (predecessors g n) <-> edge g m n.
Proof.
  unfold predecessors, edge. rewrite in_map_iff. split.
  - intros ([k s] & <- & H). apply filter_In in H as [H M]. apply mem_In in M. eauto.
  - intros (ss & H & M). exists (m, ss). split; [reflexivity|]. apply filter_In. split; [exact H|]. now apply mem_In.
Qed.

Definition pending (g : dgraph) (loop : list string) : nat :=
  list_sum (map (fun e => length (filter (fun n => negb (mem n loop)) (nodup string_dec (snd e)))) g).
Lemma list_sum_le {A} (f h : A -> nat) l : (forall x, In x l -> f x <= h x) -> list_sum (map f l) <= list_sum (map h l).
Proof.
  induction l as [|x l IH]; simpl; intros H; [lia|]. assert (f x <= h x) by auto.
  assert (list_sum (map f l) <= list_sum (map h l)) by (apply IH; auto). unfold list_sum in *. simpl. lia.
Qed.
Lemma filter_pair (n : string) (loop l : list string) : NoDup l -> ~ In n loop ->
  length (filter (fun x => negb (mem x (loop ++ [n]))) l) + (if mem n l then 1 else 0) = length (filter (fun x => negb (mem x loop)) l).
Proof.
  intros N Nn. assert (M : forall x, mem x (loop ++ [n]) = mem x loop || String.eqb x n).
  { intros x. unfold mem. rewrite existsb_app. simpl. rewrite orb_false_r. reflexivity. }
  induction l as [|x l IH]; [reflexivity|]. inversion N as [|? ? N1 N2]; subst. specialize (IH N2). cbn [filter]. rewrite M.
  destruct (String.eqb_spec x n) as [->|Nx].
  - assert (mem n loop = false) as -> by (now apply mem_false). cbn [orb negb]. cbn [length].
    assert (Ml : mem n l = false) by (now apply mem_false). rewrite Ml in IH.
    assert (Mn : mem n (n :: l) = true) by (apply mem_In; simpl; auto). rewrite Mn. lia.
  - rewrite orb_false_r. assert (Mn : mem n (x :: l) = mem n l).
    { unfold mem. simpl. destruct (String.eqb_spec n x); [congruence|reflexivity]. }
    rewrite Mn. destruct (negb (mem x loop)); cbn [length]; lia.
Qed.
Lemma pending_step g loop n : ~ In n loop -> pending g (loop ++ [n]) + length (predecessors g n) = pending g loop.
Proof.
  intros Nn. unfold pending, predecessors. rewrite map_length. induction g as [|[k s] g IH]; [reflexivity|].
  cbn [map filter fst snd]. change (list_sum (?a :: ?l)) with (a + list_sum l).
  pose proof (filter_pair n loop (nodup string_dec s) (NoDup_nodup _ _) Nn) as F.
  assert (Ms : mem n (nodup string_dec s) = mem n s).
  { destruct (mem n s) eqn:M.
    - apply mem_In. apply nodup_In. now apply mem_In.
    - apply mem_false. rewrite nodup_In. now apply mem_false. }
  rewrite Ms in F. destruct (mem n s); cbn [length] in *; simpl in *; unfold list_sum in *; simpl; lia.
Qed.
Lemma pending_bound g loop : pending g loop <= count_edges g.
Proof.
  apply list_sum_le. intros [k s] _. cbn [snd].
  etransitivity; [apply (filter_le _ (fun _ => true)); reflexivity|].
  assert (H0 : forall l : list string, filter (fun _ => true) l = l) by (induction l as [|a l IHl]; simpl; congruence).
  rewrite H0. induction s as [|x s IH]; [reflexivity|]. simpl. destruct (in_dec string_dec x s); simpl; lia.
Qed.

Lemma natural_loop_spec g v u : forall fuel loop work, length work + pending g loop <= fuel -> NoDup loop ->
  In v loop ->
  (forall n, In n loop -> n = v \/ reach_avoiding g v u n) ->
  (forall n, In n work -> n = v \/ reach_avoiding g v u n) ->
  (In u loop \/ In u work) ->
  (forall n m, In n loop -> n <> v -> edge g m n -> In m loop \/ In m work) ->
  exists body, natural_loop fuel g loop work = Ok body /\ NoDup body /\ forall n, In n body <-> n = v \/ reach_avoiding g v u n.
Proof.
  induction fuel as [|fuel IH]; intros loop work L N Iv Sl Sw Iu Cl.
  - destruct work as [|w work]; [|simpl in L; lia]. exists loop. split; [reflexivity|]. split; [exact N|].
    intros n. split; [apply Sl|]. intros [->|R]; [exact Iv|]. induction R as [Nu|n m Nn E R IHr]; [destruct Iu as [Iu|[]]; exact Iu|].
    destruct (string_dec m v) as [->|Nm]; [inversion R; congruence|].
    destruct (Cl m n IHr Nm E) as [H|[]]. exact H.
  - cbn [natural_loop]. destruct (rev work) as [|n rest] eqn:Er.
    + assert (work = []) by (apply (f_equal (@rev string)) in Er; rewrite rev_involutive in Er; exact Er). subst work.
      exists loop. split; [reflexivity|]. split; [exact N|].
      intros n. split; [apply Sl|]. intros [->|R]; [exact Iv|]. induction R as [Nu|n m Nn E R IHr]; [destruct Iu as [Iu|[]]; exact Iu|].
      destruct (string_dec m v) as [->|Nm]; [inversion R; congruence|].
      destruct (Cl m n IHr Nm E) as [H|[]]. exact H.
    + assert (Ew : work = rev rest ++ [n]). { rewrite <- (rev_involutive work), Er. reflexivity. }
      clear Er. subst work. rewrite app_length in L. simpl in L.
      assert (Sn : n = v \/ reach_avoiding g v u n) by (apply Sw; apply in_app_iff; simpl; auto).
      destruct (mem n loop) eqn:M.
      * apply mem_In in M. apply IH; auto; [lia| | |].
        -- intros m Hm. apply Sw. apply in_app_iff. auto.
        -- destruct Iu as [Iu|Iu]; [auto|]. apply in_app_iff in Iu as [Iu|[<-|[]]]; auto.
        -- intros a b Ha Na Eb. destruct (Cl a b Ha Na Eb) as [H|H]; [auto|]. apply in_app_iff in H as [H|[<-|[]]]; auto.
      * apply mem_false in M. assert (Nnv : n <> v) by (intros ->; contradiction). destruct Sn as [Sn|Sn]; [contradiction|].
        pose proof (pending_step g loop n M). apply IH.
        -- rewrite app_length. lia.
        -- apply NoDup_Add with (a := n) (l := loop); [rewrite <- (app_nil_r loop) at 1; apply Add_app|auto].
        -- apply in_app_iff. auto.
        -- intros m Hm. apply in_app_iff in Hm as [Hm|[<-|[]]]; auto.
        -- intros m Hm. apply in_app_iff in Hm as [Hm|Hm]; [apply Sw; apply in_app_iff; auto|]. apply predecessors_edge in Hm.
           destruct (string_dec m v) as [->|Nm]; [auto|]. right. econstructor; eauto.
        -- rewrite !in_app_iff in *. simpl in *. tauto.
        -- intros a b Ha Na Eb. rewrite in_app_iff in *. destruct Ha as [Ha|[<-|[]]].
           ++ destruct (Cl a b Ha Na Eb) as [H'|H']; [auto|]. rewrite in_app_iff in *. simpl in *. tauto.
           ++ right. apply in_app_iff. right. apply predecessors_edge. exact Eb.
Qed.

(** The body of the loop of an edge [u -> v]: the header [v] and exactly the
    nodes that reach [u] without passing through [v]. *)
Theorem natural_loop_correct : forall g u v, exists body, find_natural_loop g u v = Ok body /\ NoDup body
  /\ forall n, In n body <-> n = v \/ reach_avoiding g v u n.
Proof.
  intros g u v. unfold find_natural_loop. apply natural_loop_spec; simpl; auto.
  - pose proof (pending_bound g [v]). lia.
  - repeat constructor; auto.
  - intros n [<-|[]]; auto.
  - intros n [<-|[]]. destruct (string_dec u v) as [->|N]; [auto|right; now constructor].
  - intros n m [<-|[]]; congruence.
Qed.
Print Assumptions natural_loop_correct.

(* --- the loop nesting forest --- *)
Definition nest_child (h : string) (st : list string * list (string * string)) (c : string) : list string * list (string * string) :=
  let '(seen, es) := st in
  if String.eqb c h then (seen, es) else if mem c seen then (seen, es) else (c :: seen, es ++ [(h, c)]).
Lemma nest_inner h b : forall seen es, let st := fold_left (nest_child h) b (seen, es) in
  (forall x, In x (fst st) <-> In x seen \/ (In x b /\ x <> h)) /\
  (forall p c, In (p, c) (snd st) <-> In (p, c) es \/ (p = h /\ In c b /\ c <> h /\ ~ In c seen)).
Proof.
  induction b as [|x b IH]; intros seen es; cbn [fold_left].
  - simpl. split; [tauto|]. intros; tauto.
  - unfold nest_child at 2 4. destruct (String.eqb_spec x h) as [->|Nx].
    { destruct (IH seen es) as [A B]. split.
      - intros y. rewrite A. simpl. split; [tauto|]. intros [H|[[H|H] N]]; auto. congruence.
      - intros p c. rewrite B. simpl. split; [tauto|]. intros [H|(H1 & [H2|H2] & N & M)]; auto. congruence. }
    destruct (mem x seen) eqn:M.
    { apply mem_In in M. destruct (IH seen es) as [A B]. split.
      - intros y. rewrite A. simpl. split; [tauto|]. intros [H|[[<-|H] N]]; auto.
      - intros p c. rewrite B. simpl. split; [tauto|]. intros [H|(H1 & [<-|H2] & N & M')]; auto. contradiction. }
    apply mem_false in M. destruct (IH (x :: seen) (es ++ [(h, x)])) as [A B]. split.
    + intros y. rewrite A. simpl. split; [intros [[<-|H]|[H N]]; auto|intros [H|[[<-|H] N]]; auto].
    + intros p c. rewrite B, in_app_iff. simpl. split.
      * intros [[H|[H|[]]]|(H1 & H2 & H3 & H4)]; auto.
        { injection H as <- <-. right. auto. }
        { right. split; [auto|]. split; [auto|]. split; [auto|]. intros Q. apply H4. auto. }
      * intros [H|(-> & [<-|H2] & H3 & H4)]; auto. destruct (string_dec x c) as [->|Nc]; [auto|].
        right. split; [auto|]. split; [auto|]. split; [auto|]. intros [Q|Q]; auto.
Qed.

(** [c] hangs from the first loop, in the given order, that has it inside. *)
Lemma nesting_edges_spec bodies : forall h c, In (h, c) (nesting_edges bodies) <->
  exists l1 b l2, bodies = l1 ++ (h, b) :: l2 /\ In c b /\ c <> h /\ forall h' b', In (h', b') l1 -> In c b' -> c = h'.
Proof.
  unfold nesting_edges. change (fun st hb => fold_left _ (snd hb) st) with
    (fun (st : list string * list (string * string)) (hb : string * list string) => fold_left (nest_child (fst hb)) (snd hb) st).
  set (F := fun (st : list string * list (string * string)) (hb : string * list string) => fold_left (nest_child (fst hb)) (snd hb) st).
  assert (G : (forall x, In x (fst (fold_left F bodies ([], []))) <-> exists h b, In (h, b) bodies /\ In x b /\ x <> h) /\
    (forall h c, In (h, c) (snd (fold_left F bodies ([], []))) <->
      exists l1 b l2, bodies = l1 ++ (h, b) :: l2 /\ In c b /\ c <> h /\ forall h' b', In (h', b') l1 -> In c b' -> c = h')); [|apply G].
  induction bodies as [|[h0 b0] bodies IH] using rev_ind.
  - simpl. split; [split; [intros []|intros (h & b & [] & _)]|].
    intros h c. split; [intros []|]. intros ([|? ?] & b & l2 & Q & _); discriminate Q.
  - rewrite fold_left_app. cbn [fold_left]. destruct (fold_left F bodies ([], [])) as [seen es]. cbn [fst snd] in IH.
    destruct IH as [IA IB]. unfold F at 1 2. cbn [fst snd]. destruct (nest_inner h0 b0 seen es) as [A B]. cbv zeta in A, B. split.
    + intros x. rewrite A, IA. setoid_rewrite in_app_iff. split.
      * intros [(h & b & H1 & H2)|[H1 H2]]; [exists h, b; auto|]. exists h0, b0. simpl. auto.
      * intros (h & b & [H1|[H1|[]]] & H2); [left; eauto|]. injection H1 as <- <-. right. exact H2.
    + intros h c. rewrite B, IB, IA. split.
      * intros [(l1 & b & l2 & -> & H)|(-> & H1 & H2 & H3)].
        -- exists l1, b, (l2 ++ [(h0, b0)]). split; [now rewrite <- app_assoc|exact H].
        -- exists bodies, b0, []. split; [reflexivity|]. split; [exact H1|]. split; [exact H2|].
           intros h' b' I Ic. destruct (string_dec c h') as [|N]; [assumption|]. exfalso. apply H3. eauto.
      * intros (l1 & b & l2 & E & H1 & H2 & H3). destruct l2 as [|z l2] using rev_ind.
        -- apply app_inj_tail in E as [-> E]. injection E as <- <-. right. split; [reflexivity|]. split; [exact H1|]. split; [exact H2|].
           intros (h' & b' & I & Ic & N). apply N. eapply H3; eauto.
        -- clear IHl2. left. rewrite app_comm_cons, app_assoc in E. apply app_inj_tail in E as [-> _]. exists l1, b, l2. auto.
Qed.

Lemma insert_loop_perm l ls : Permutation (insert_loop l ls) (l :: ls).
Proof. induction ls as [|m ls IH]; [reflexivity|]. cbn [insert_loop]. destruct (_ <=? _)%nat; [reflexivity|]. rewrite IH. apply perm_swap. Qed.
Lemma sort_loops_perm ls : Permutation (sort_loops ls) ls.
Proof. induction ls as [|l ls IH]; [reflexivity|]. cbn [sort_loops fold_right]. rewrite insert_loop_perm. now constructor. Qed.
Definition sized (ls : list (string * list string)) : Prop :=
  forall l1 a l2 b, ls = l1 ++ a :: l2 -> In b l2 -> length (snd a) <= length (snd b).
Lemma sized_cons a l : sized l -> (forall b, In b l -> length (snd a) <= length (snd b)) -> sized (a :: l).
Proof. intros S H [|x l1] y l2 b E I; simpl in E; injection E as -> E; [subst; auto|]. eapply S; eauto. Qed.
Lemma insert_loop_sized l ls : sized ls -> sized (insert_loop l ls).
Proof.
  induction ls as [|m ls IH]; intros S; cbn [insert_loop].
  - apply sized_cons; [exact S|intros b []].
  - assert (S' : sized ls) by (intros l1 a l2 b E; apply (S (m :: l1) a l2 b); now rewrite E).
    assert (Hm : forall b, In b ls -> length (snd m) <= length (snd b)) by (intros b; apply (S [] m ls); reflexivity).
    destruct (Nat.leb_spec (length (snd l)) (length (snd m))) as [Le|Gt].
    + apply sized_cons; [exact S|]. intros b [<-|I]; [exact Le|]. specialize (Hm b I). lia.
    + apply sized_cons; [auto|]. intros b I. apply (Permutation_in _ (insert_loop_perm l ls)) in I as [<-|I]; [lia|auto].
Qed.
Lemma sort_loops_sized ls : sized (sort_loops ls).
Proof. induction ls as [|l ls IH]; [intros [|? ?] ? ? ? E; discriminate E|]. cbn [sort_loops fold_right]. apply insert_loop_sized. exact IH. Qed.

Lemma dict_set_new {A} k (v : A) d : ~ In k (map fst d) -> dict_set k v d = d ++ [(k, v)].
Proof.
  induction d as [|[k' v'] d IH]; intros N; [reflexivity|]. cbn [dict_set]. simpl in N.
  destruct (String.eqb_spec k' k) as [->|Nk]; [exfalso; auto|]. rewrite IH by auto. reflexivity.
Qed.
Lemma dict_of_distinct {A} (ls : list (string * A)) : NoDup (map fst ls) ->
  fold_left (fun d hb => dict_set (fst hb) (snd hb) d) ls [] = ls.
Proof.
  intros N. assert (G : forall d, NoDup (map fst (d ++ ls)) -> fold_left (fun d hb => dict_set (fst hb) (snd hb) d) ls d = d ++ ls); [|apply (G []); exact N].
  clear N. induction ls as [|[k v] ls IH]; intros d N; cbn [fold_left]; [now rewrite app_nil_r|].
  cbn [fst snd]. rewrite dict_set_new.
  - rewrite IH; [now rewrite <- app_assoc|]. rewrite <- app_assoc. exact N.
  - rewrite map_app in N. simpl in N. apply NoDup_remove_2 in N. rewrite in_app_iff in N. tauto.
Qed.

(** When no two back edges share their header: the nodes of the forest are the
    headers; a node hangs from at most one header, of a loop that contains it
    and is as small as any other loop around it; every node inside a loop hangs
    from some header. *)
Theorem loop_forest_partial : forall g back, well_formed g -> find_back_edges g = Ok back -> NoDup (map snd back) ->
  exists headers edges, loop_nesting_forest g = Ok (headers, edges)
  /\ (forall h, In h headers <-> In h (map snd back))
  /\ (forall h h' c, In (h, c) edges -> In (h', c) edges -> h = h')
  /\ (forall h c, In (h, c) edges -> c <> h /\ exists u body, In (u, h) back /\ find_natural_loop g u h = Ok body /\ In c body
        /\ forall u' h' body', In (u', h') back -> find_natural_loop g u' h' = Ok body' -> In c body' -> c <> h' -> length body <= length body')
  /\ (forall u h body c, In (u, h) back -> find_natural_loop g u h = Ok body -> In c body -> c <> h -> exists h', In (h', c) edges).
Proof.
  intros g back W Eb Nb. unfold loop_nesting_forest. rewrite Eb. cbn [bind].
  assert (M : exists loops, map_result (fun e => do b <- find_natural_loop g (fst e) (snd e); Ok (snd e, b)) back = Ok loops
    /\ map fst loops = map snd back
    /\ (forall h b, In (h, b) loops <-> exists u, In (u, h) back /\ find_natural_loop g u h = Ok b)).
  { clear Eb Nb. induction back as [|[u h] back (loops & E & F & H)]; cbn [map_result].
    - exists []. split; [reflexivity|]. split; [reflexivity|]. intros; split; [intros []|intros (u & [] & _)].
    - cbn [fst snd]. destruct (natural_loop_correct g u h) as (b & Eb & _). rewrite Eb. cbn [bind]. rewrite E. cbn [bind].
      exists ((h, b) :: loops). split; [reflexivity|]. split; [simpl; now rewrite F|]. intros h' b'. simpl. rewrite H. split.
      + intros [Q|(u' & Q1 & Q2)]; [injection Q as <- <-; exists u; auto|exists u'; auto].
      + intros (u' & [Q|Q] & Q2); [injection Q as <- <-; left; congruence|right; eauto]. }
  destruct M as (loops & El & Fl & Hl). rewrite El. cbn [bind].
  assert (P := sort_loops_perm loops).
  assert (Ns : NoDup (map fst (sort_loops loops))).
  { eapply Permutation_NoDup; [|exact Nb]. rewrite <- Fl. symmetry. now apply Permutation_map. }
  rewrite (dict_of_distinct _ Ns). eexists _, _. split; [reflexivity|].
  assert (Hs : forall h b, In (h, b) (sort_loops loops) <-> exists u, In (u, h) back /\ find_natural_loop g u h = Ok b).
  { intros h b. rewrite <- Hl. split; apply Permutation_in; [exact P|now symmetry]. }
  assert (Sz := sort_loops_sized loops).
  set (S := sort_loops loops) in *. clearbody S.
  split; [|split; [|split]].
  - intros h. rewrite <- Fl. split; intros I; [eapply Permutation_in; [|exact I]; now apply Permutation_map|].
    eapply Permutation_in; [|exact I]. symmetry. now apply Permutation_map.
  - intros h h' c H H'. apply nesting_edges_spec in H as (l1 & b & l2 & E & I & N & F). apply nesting_edges_spec in H' as (m1 & b' & m2 & E' & I' & N' & F').
    rewrite E in E'. clear - E' F F' I I' N N'. revert m1 E' F'. induction l1 as [|x l1 IH]; intros m1 E' F'.
    + destruct m1 as [|y m1]; simpl in E'; injection E' as E1 E2; [congruence|]. subst y. exfalso. apply N. apply (F' h b); simpl; auto.
    + destruct m1 as [|y m1]; simpl in E'; injection E' as E1 E2.
      * subst x. exfalso. apply N'. apply (F h' b'); simpl; auto.
      * apply (IH (fun p q Hp => F p q (or_intror Hp)) m1 E2). intros p q Hp. apply F'. right. exact Hp.
  - intros h c H. apply nesting_edges_spec in H as (l1 & b & l2 & E & I & N & F). split; [exact N|].
    assert (Ib : In (h, b) S) by (rewrite E; apply in_app_iff; simpl; auto). apply Hs in Ib as (u & Iu & Eu).
    exists u, b. split; [exact Iu|]. split; [exact Eu|]. split; [exact I|]. intros u' h' b' Iu' Eu' Ic N'.
    assert (Ib' : In (h', b') S) by (apply Hs; eauto). rewrite E in Ib'. apply in_app_iff in Ib' as [Q|[Q|Q]].
    + exfalso. apply N'. eapply F; eauto.
    + injection Q as -> ->. lia.
    + apply (Sz l1 (h, b) l2 (h', b') E Q).
  - intros u h b c Iu Eu Ic N. assert (Ib : In (h, b) S) by (apply Hs; eauto).
    assert (X : exists l1 h' b' l2, S = l1 ++ (h', b') :: l2 /\ In c b' /\ c <> h' /\ forall h'' b'', In (h'', b'') l1 -> In c b'' -> c = h'').
    { clear - Ib Ic N. induction S as [|[h' b'] S IH]; [destruct Ib|].
      destruct (in_dec string_dec c b') as [J|J]; [destruct (string_dec c h') as [->|K]|].
      - destruct Ib as [Q|Ib]; [injection Q as -> ->; contradiction|]. destruct (IH Ib) as (l1 & h2 & b2 & l2 & -> & A & B & F).
        exists ((h', b') :: l1), h2, b2, l2. split; [reflexivity|]. split; [exact A|]. split; [exact B|].
        intros p q [Q|Q] Iq; [injection Q as <- <-; reflexivity|eauto].
      - exists [], h', b', S. split; [reflexivity|]. split; [exact J|]. split; [exact K|]. intros p q [].
      - destruct Ib as [Q|Ib]; [injection Q as -> ->; contradiction|]. destruct (IH Ib) as (l1 & h2 & b2 & l2 & -> & A & B & F).
        exists ((h', b') :: l1), h2, b2, l2. split; [reflexivity|]. split; [exact A|]. split; [exact B|].
        intros p q [Q|Q] Iq; [injection Q as <- <-; contradiction|eauto]. }
    destruct X as (l1 & h' & b' & l2 & E & A & B & F). exists h'. apply nesting_edges_spec. exists l1, b', l2. auto.
Qed.
Print Assumptions loop_forest_partial.

(** A loop nested in another one. *)
Definition nested_loops : dgraph :=
  [("entry", ["outer"]); ("outer", ["inner"; "exit"]); ("inner", ["body"; "latch"]); ("body", ["inner"]); ("latch", ["outer"]); ("exit", [])].
Example graph_example : well_formed nested_loops
  /\ find_back_edges nested_loops = Ok [("body", "inner"); ("latch", "outer")]
  /\ find_natural_loop nested_loops "latch" "outer" = Ok ["outer"; "latch"; "inner"; "body"]
  /\ loop_nesting_forest nested_loops = Ok (["inner"; "outer"], [("inner", "body"); ("outer", "latch"); ("outer", "inner")]).
Proof.
  split; [|vm_compute; auto]. constructor.
  - repeat constructor; simpl; intuition discriminate.
  - intros u v (ss & I & Iv). simpl in I. repeat destruct I as [I|I]; try (injection I as <- <-); simpl in Iv; simpl;
      repeat destruct Iv as [Iv|Iv]; subst; auto 10; contradiction.
Qed.

(** With two back edges to the same header the forest only keeps the body of
    the last one: block "a" is inside the loop of "h" but hangs from nothing. *)
Theorem loop_forest_shared_header_refuted : exists g back headers edges body,
  find_back_edges g = Ok back /\ In ("a", "h") back /\ find_natural_loop g "a" "h" = Ok body /\ In "a" body
  /\ loop_nesting_forest g = Ok (headers, edges) /\ forall h, ~ In (h, "a") edges.
Proof.
  exists [("h", ["a"; "b"]); ("a", ["h"]); ("b", ["h"])]. eexists _, _, _, _.
  split; [vm_compute; reflexivity|]. split; [simpl; auto|]. split; [vm_compute; reflexivity|]. split; [simpl; auto|].
  split; [vm_compute; reflexivity|]. intros h [H|[]]. discriminate H.
Qed.
Print Assumptions loop_forest_shared_header_refuted.
