(** Splitting and merging blocks (C22, C23). *)
From Verif Require Import Base UtilModel UtilProps UnifyProps LiveModel CfgModel CfgSpec.
Open Scope string_scope. Open Scope list_scope.

Definition relink (old new : string) (b : cblock) : cblock :=
  set_falls_to (option_map (subst old new) (cb_falls_to b)) (set_jump_to (option_map (subst old new) (cb_jump_to b)) b).
Definition relist (old new : string) (b : cblock) : cblock :=
  set_entries (map (subst old new) (cb_entries b)) (set_comes_from (map (subst old new) (cb_comes_from b)) b).

(** ** Dictionaries *)
Lemma dict_set_same_keys {A} k (v : A) d : In k (map fst d) -> map fst (dict_set k v d) = map fst d.
Proof.
  induction d as [|[k' v'] d IH]; simpl; [tauto|]. intros H. destruct (String.eqb_spec k' k); simpl; [subst; reflexivity|].
  f_equal. apply IH. tauto.
Qed.
Lemma lookup_In_key {A} k (v : A) d : lookup k d = Some v -> In k (map fst d).
Proof. induction d as [|[k' v'] d IH]; simpl; [discriminate|]. destruct (String.eqb_spec k' k); auto. Qed.
Lemma key_lookup {A} k (d : list (string * A)) : In k (map fst d) -> exists v, lookup k d = Some v.
Proof. induction d as [|[k' v'] d IH]; simpl; [tauto|]. destruct (String.eqb_spec k' k); eauto. intros [?|?]; [congruence|auto]. Qed.
Lemma lookup_del {A} k (d : list (string * A)) x : lookup x (del k d) = if String.eqb k x then None else lookup x d.
Proof.
  unfold del. induction d as [|[k' v'] d IH]; simpl; [destruct (k =? x)%string; reflexivity|].
  destruct (String.eqb_spec k' k); simpl.
  - subst. rewrite IH. destruct (String.eqb_spec k x); reflexivity.
  - destruct (String.eqb_spec k' x); [|exact IH]. subst. destruct (String.eqb_spec k x); congruence.
Qed.
Lemma NoDup_del {A} k (d : list (string * A)) : NoDup (map fst d) -> NoDup (map fst (del k d)).
Proof.
  unfold del. induction d as [|[k' v'] d IH]; simpl; [auto|]. intros H; inversion H as [|? ? H1 H2]; subst.
  destruct (k' =? k)%string; simpl; [auto|]. constructor; [|auto]. intros Q; apply H1.
  apply in_map_iff in Q as (kv & E & Q). apply filter_In in Q as [Q _]. apply in_map_iff. eauto.
Qed.
Lemma without_In x y l : In x (without y l) <-> In x l /\ x <> y.
Proof.
  unfold without. rewrite filter_In. split; intros [H1 H2]; split; auto.
  - apply negb_true_iff, String.eqb_neq in H2. auto.
  - apply negb_true_iff, String.eqb_neq. auto.
Qed.
Lemma opt_eqb_eq a b : opt_eqb a b = true <-> a = b.
Proof. destruct a, b; simpl; split; intros; try discriminate; auto; [apply String.eqb_eq in H|injection H as ->; apply String.eqb_refl]; congruence. Qed.

(** ** Editing the successors of the predecessors *)
Definition same_shape (g g' : clist) : Prop :=
  map fst (cl_blocks g') = map fst (cl_blocks g) /\ cl_start g' = cl_start g /\ cl_terminal g' = cl_terminal g /\ cl_return g' = cl_return g.
Lemma same_shape_refl g : same_shape g g. Proof. repeat split. Qed.
Lemma same_shape_trans a b c : same_shape a b -> same_shape b c -> same_shape a c.
Proof. intros (H1 & H2 & H3 & H4) (K1 & K2 & K3 & K4). repeat split; congruence. Qed.
Lemma put_shape id b g : In id (map fst (cl_blocks g)) -> same_shape g (put_block id b g).
Proof. intros H. repeat split. apply dict_set_same_keys; auto. Qed.

Lemma count_cons x y l : count x (y :: l) = (if String.eqb y x then 1 else 0) + count x l.
Proof. simpl. destruct (String.eqb_spec y x), (String.eqb_spec x y); congruence || reflexivity. Qed.
Lemma count_opt x o : count x (opt_list o) = if opt_eqb o (Some x) then 1 else 0.
Proof. destruct o as [y|]; simpl; [|reflexivity]. destruct (String.eqb_spec y x), (String.eqb_spec x y); congruence || reflexivity. Qed.
Lemma departures_succ g a b blk : lookup a (cl_blocks g) = Some blk ->
  departures g a b = (if opt_eqb (cb_jump_to blk) (Some b) then 1 else 0) + (if opt_eqb (cb_falls_to blk) (Some b) then 1 else 0).
Proof. intros H. unfold departures. rewrite H. unfold successors. rewrite count_app, !count_opt. reflexivity. Qed.

Lemma option_subst_ne old new o : o <> Some old -> option_map (subst old new) o = o.
Proof. destruct o as [x|]; simpl; [|reflexivity]. intros H. unfold subst. destruct (String.eqb_spec x old); congruence. Qed.
Lemma option_subst_twice old new o : option_map (subst old new) (option_map (subst old new) o) = option_map (subst old new) o.
Proof. destruct o as [x|]; simpl; [|reflexivity]. unfold subst. destruct (String.eqb_spec x old); [|destruct (String.eqb_spec x old); congruence].
  destruct (String.eqb_spec new old); congruence. Qed.
Lemma relink_noop old new b : ~ In old (successors b) -> relink old new b = b.
Proof.
  unfold successors, relink. rewrite in_app_iff. intros H.
  rewrite !option_subst_ne; [destruct b; reflexivity| |]; intros E; apply H; rewrite E; simpl; auto.
Qed.

Lemma modify_successors_once old new p g blk : old <> new -> lookup p (cl_blocks g) = Some blk -> In old (successors blk) ->
  exists g' blk', modify_successors p (Some old) new g = Ok g' /\ same_shape g g'
    /\ (forall x, lookup x (cl_blocks g') = if String.eqb p x then Some blk' else lookup x (cl_blocks g))
    /\ relink old new blk' = relink old new blk /\ S (count old (successors blk')) = count old (successors blk).
Proof.
  intros N L I. unfold modify_successors, get_block. rewrite L. simpl.
  destruct (opt_eqb (cb_jump_to blk) (Some old)) eqn:E.
  - apply opt_eqb_eq in E. eexists _, (set_jump_to (Some new) blk). split; [reflexivity|].
    split; [apply put_shape; eapply lookup_In_key; eauto|]. split; [intros x; apply lookup_dict_set|]. split.
    + unfold relink. simpl. rewrite E. simpl. unfold subst. rewrite String.eqb_refl.
      destruct (String.eqb_spec new old); [congruence|]. reflexivity.
    + unfold successors. simpl. rewrite E. simpl. destruct (String.eqb_spec new old); [congruence|]. rewrite String.eqb_refl. reflexivity.
  - assert (F : cb_falls_to blk = Some old).
    { unfold successors in I. apply in_app_iff in I as [I|I].
      - destruct (cb_jump_to blk) as [y|]; simpl in *; [|tauto]. destruct I as [I|[]]. subst. rewrite String.eqb_refl in E. discriminate.
      - destruct (cb_falls_to blk) as [y|]; simpl in *; [|tauto]. destruct I as [I|[]]. congruence. }
    rewrite (proj2 (opt_eqb_eq (cb_falls_to blk) (Some old)) F). simpl.
    eexists _, (set_falls_to (Some new) blk). split; [reflexivity|].
    split; [apply put_shape; eapply lookup_In_key; eauto|]. split; [intros x; apply lookup_dict_set|]. split.
    + unfold relink. simpl. rewrite F. simpl. unfold subst. rewrite String.eqb_refl.
      destruct (String.eqb_spec new old); [congruence|]. destruct blk; reflexivity.
    + unfold successors. simpl. rewrite !count_app, F, !count_opt. simpl. destruct (String.eqb_spec new old); [congruence|].
      rewrite String.eqb_refl. lia.
Qed.

Lemma modify_successors_all old new : old <> new -> forall preds g, (forall a, count a preds = departures g a old) ->
  exists g', for_each (fun g p => modify_successors p (Some old) new g) preds g = Ok g' /\ same_shape g g'
    /\ forall x, lookup x (cl_blocks g') = option_map (relink old new) (lookup x (cl_blocks g)).
Proof.
  intros N. induction preds as [|p preds IH]; intros g C.
  - exists g. split; [reflexivity|]. split; [apply same_shape_refl|]. intros x. destruct (lookup x (cl_blocks g)) as [blk|] eqn:L; [|reflexivity].
    simpl. rewrite relink_noop; [reflexivity|]. intros I. apply count_In in I. specialize (C x). unfold departures in C. rewrite L in C. simpl in C. lia.
  - assert (P := C p). rewrite count_cons, String.eqb_refl in P. unfold departures in P.
    destruct (lookup p (cl_blocks g)) as [blk|] eqn:L; [|lia].
    destruct (modify_successors_once old new p g blk N L) as (g1 & blk1 & E & S1 & L1 & R1 & C1); [apply count_In; lia|].
    simpl. rewrite E. simpl. destruct (IH g1) as (g' & E' & S' & L').
    + intros a. unfold departures. rewrite L1. destruct (String.eqb_spec p a) as [->|Na].
      * lia.
      * specialize (C a). rewrite count_cons in C. unfold departures in C. destruct (String.eqb_spec p a); [congruence|]. simpl in C. exact C.
    + exists g'. split; [exact E'|]. split; [eapply same_shape_trans; eauto|]. intros x. rewrite L', L1.
      destruct (String.eqb_spec p x) as [->|Nx]; [|reflexivity]. rewrite L. simpl. congruence.
Qed.

Lemma modify_successors_same old : forall preds g, (forall a, In a preds -> 0 < departures g a old) ->
  exists g', for_each (fun g p => modify_successors p (Some old) old g) preds g = Ok g' /\ same_shape g g'
    /\ forall x, lookup x (cl_blocks g') = lookup x (cl_blocks g).
Proof.
  induction preds as [|p preds IH]; intros g C.
  - exists g. split; [reflexivity|]. split; [apply same_shape_refl|]. reflexivity.
  - assert (P := C p (or_introl eq_refl)). unfold departures in P. destruct (lookup p (cl_blocks g)) as [blk|] eqn:L; [|lia].
    assert (Q : exists g1, modify_successors p (Some old) old g = Ok g1 /\ same_shape g g1 /\ forall x, lookup x (cl_blocks g1) = lookup x (cl_blocks g)).
    { unfold modify_successors, get_block. rewrite L. simpl. destruct (opt_eqb (cb_jump_to blk) (Some old)) eqn:E.
      - apply opt_eqb_eq in E. eexists. split; [reflexivity|]. split; [apply put_shape; eapply lookup_In_key; eauto|].
        intros x. simpl. rewrite lookup_dict_set. destruct (String.eqb_spec p x) as [->|]; [|reflexivity]. rewrite L. f_equal. rewrite <- E. destruct blk; reflexivity.
      - assert (F : cb_falls_to blk = Some old).
        { unfold successors in P. rewrite count_app, !count_opt, E in P. destruct (opt_eqb (cb_falls_to blk) (Some old)) eqn:F; [|lia]. apply opt_eqb_eq; auto. }
        rewrite (proj2 (opt_eqb_eq (cb_falls_to blk) (Some old)) F). simpl. eexists. split; [reflexivity|]. split; [apply put_shape; eapply lookup_In_key; eauto|].
        intros x. simpl. rewrite lookup_dict_set. destruct (String.eqb_spec p x) as [->|]; [|reflexivity]. rewrite L. f_equal. rewrite <- F. destruct blk; reflexivity. }
    destruct Q as (g1 & E & S1 & L1). simpl. rewrite E. simpl. destruct (IH g1) as (g' & E' & S' & L').
    + intros a I. unfold departures. rewrite L1. apply (C a). right; auto.
    + exists g'. split; [exact E'|]. split; [eapply same_shape_trans; eauto|]. intros x. rewrite L', L1. reflexivity.
Qed.

(** ** Editing the predecessors of the successors *)
Lemma modify_comes_from_one old new t g blk : lookup t (cl_blocks g) = Some blk -> In old (cb_comes_from blk) ->
  exists g', modify_comes_from t (Some old) new g = Ok g' /\ same_shape g g'
    /\ forall x, lookup x (cl_blocks g') = if String.eqb t x then Some (relist old new blk) else lookup x (cl_blocks g).
Proof.
  intros L I. unfold modify_comes_from, get_block. rewrite L. simpl. rewrite (proj2 (mem_In _ _) I). simpl.
  eexists. split; [reflexivity|]. split; [apply put_shape; eapply lookup_In_key; eauto|]. intros x. apply lookup_dict_set.
Qed.
Lemma modify_comes_from_both old new jump falls g : (forall x, In x (opt_list jump ++ opt_list falls) ->
    exists blk, lookup x (cl_blocks g) = Some blk /\ In old (cb_comes_from blk)) ->
  NoDup (opt_list jump ++ opt_list falls) ->
  exists g1 g2, opt_modify_comes_from jump old new g = Ok g1 /\ opt_modify_comes_from falls old new g1 = Ok g2 /\ same_shape g g2
    /\ forall x, lookup x (cl_blocks g2) = if mem x (opt_list jump ++ opt_list falls) then option_map (relist old new) (lookup x (cl_blocks g)) else lookup x (cl_blocks g).
Proof.
  intros H D.
  assert (A : exists g1, opt_modify_comes_from jump old new g = Ok g1 /\ same_shape g g1
    /\ forall x, lookup x (cl_blocks g1) = if mem x (opt_list jump) then option_map (relist old new) (lookup x (cl_blocks g)) else lookup x (cl_blocks g)).
  { destruct jump as [j|]; simpl; [|exists g; split; [reflexivity|]; split; [apply same_shape_refl|reflexivity]].
    destruct (H j) as (blk & L & I); [simpl; auto|]. destruct (modify_comes_from_one old new j g blk L I) as (g1 & E & S & LL).
    exists g1. split; [exact E|]. split; [exact S|]. intros x. rewrite LL. destruct (String.eqb_spec j x) as [->|N].
    - rewrite L, String.eqb_refl. reflexivity.
    - destruct (String.eqb_spec x j); [congruence|]. reflexivity. }
  destruct A as (g1 & E1 & S1 & L1). exists g1. destruct falls as [f|]; simpl.
  - destruct (H f) as (blk & L & I); [apply in_app_iff; simpl; auto|].
    assert (N : mem f (opt_list jump) = false).
    { apply mem_false. intros Q. destruct jump as [j|]; simpl in *; [|tauto]. destruct Q as [->|[]]. inversion D as [|? ? D1 D2]; subst. apply D1. simpl; auto. }
    destruct (modify_comes_from_one old new f g1 blk) as (g2 & E & S & LL); [rewrite L1, N; exact L|exact I|].
    exists g2. split; [exact E1|]. split; [exact E|]. split; [eapply same_shape_trans; eauto|]. intros x. rewrite LL.
    destruct (String.eqb_spec f x) as [->|Nx].
    + rewrite L. replace (mem x (opt_list jump ++ [x])) with true; [reflexivity|]. symmetry. apply mem_In, in_app_iff. simpl; auto.
    + rewrite L1. replace (mem x (opt_list jump ++ [f])) with (mem x (opt_list jump)); [reflexivity|].
      apply Bool.eq_iff_eq_true. rewrite !mem_In, in_app_iff. simpl. intuition congruence.
  - exists g1. split; [exact E1|]. split; [reflexivity|]. split; [exact S1|]. intros x. rewrite L1, app_nil_r. reflexivity.
Qed.

(** ** Counting links *)
Lemma subst_old old new : subst old new old = new. Proof. unfold subst. rewrite String.eqb_refl. reflexivity. Qed.
Lemma subst_ne old new x : x <> old -> subst old new x = x. Proof. unfold subst. intros H. destruct (String.eqb_spec x old); congruence. Qed.
Lemma count_subst old new a l : old <> new ->
  count a (map (subst old new) l) = if String.eqb a new then count new l + count old l else if String.eqb a old then 0 else count a l.
Proof.
  intros N. induction l as [|x l IH]; simpl; [destruct (a =? new)%string, (a =? old)%string; reflexivity|]. rewrite IH. clear IH. unfold subst.
  destruct (String.eqb_spec x old) as [->|Nx].
  - destruct (String.eqb_spec new a) as [<-|Na].
    + rewrite String.eqb_refl. destruct (String.eqb_spec old new); [congruence|]. lia.
    + destruct (String.eqb_spec a new); [congruence|]. destruct (String.eqb_spec a old) as [->|]; [reflexivity|].
      destruct (String.eqb_spec old a); [congruence|]. reflexivity.
  - destruct (String.eqb_spec a new) as [->|Na]; [destruct (x =? new)%string; lia|].
    destruct (String.eqb_spec a old) as [->|]; [|reflexivity]. destruct (String.eqb_spec x old); [congruence|]. reflexivity.
Qed.
Lemma successors_relink old new b : successors (relink old new b) = map (subst old new) (successors b).
Proof. unfold successors. rewrite map_app. destruct b as [? ? [] [] ? ? ? ?]; reflexivity. Qed.
Lemma map_subst_noop old new l : ~ In old l -> map (subst old new) l = l.
Proof. induction l as [|x l IH]; simpl; [reflexivity|]. intros H. rewrite subst_ne, IH by intuition congruence. reflexivity. Qed.
Lemma relist_noop old new b : ~ In old (cb_comes_from b) -> incl (cb_entries b) (cb_comes_from b) -> relist old new b = b.
Proof. intros H I. unfold relist. rewrite !map_subst_noop by auto. destruct b; reflexivity. Qed.
Lemma count_zero x l : ~ In x l -> count x l = 0.
Proof. intros H. destruct (count x l) eqn:E; [reflexivity|]. exfalso. apply H, count_In. lia. Qed.

Lemma str_app_length a b : String.length (a ++ b)%string = String.length a + String.length b.
Proof. induction a; simpl; auto. Qed.
Lemma str_app_ne a b : b <> "" -> (a ++ b)%string <> a.
Proof. intros N H. apply (f_equal String.length) in H. rewrite str_app_length in H. destruct b; [congruence|]. simpl in H. lia. Qed.
Lemma str_app_inj a b c : (a ++ b)%string = (a ++ c)%string -> b = c.
Proof. induction a; simpl; intros H; [exact H|]. injection H; auto. Qed.
Lemma first_ne id : first_id id <> id. Proof. apply str_app_ne. discriminate. Qed.
Lemma second_ne id : second_id id <> id. Proof. apply str_app_ne. discriminate. Qed.
Lemma halves_ne id : first_id id <> second_id id. Proof. intros H. apply str_app_inj in H. discriminate. Qed.

Lemma absent_departures g a b : ~ In a (map fst (cl_blocks g)) -> departures g a b = 0.
Proof. intros H. unfold departures. destruct (lookup a (cl_blocks g)) eqn:E; [|reflexivity]. apply lookup_In_key in E. tauto. Qed.
Lemma absent_arrivals g a b : ~ In b (map fst (cl_blocks g)) -> arrivals g a b = 0.
Proof. intros H. unfold arrivals. destruct (lookup b (cl_blocks g)) eqn:E; [|reflexivity]. apply lookup_In_key in E. tauto. Qed.

(** ** Splitting *)
Record splittable (g : clist) (id : string) (b : cblock) : Prop := {
  sp_lookup : lookup id (cl_blocks g) = Some b;
  sp_no_loop : ~ In id (successors b);
  sp_targets : NoDup (successors b);
  sp_first : ~ In (first_id id) (map fst (cl_blocks g));
  sp_second : ~ In (second_id id) (map fst (cl_blocks g))
}.
Definition first_half (id : string) (i : nat) (b : cblock) : cblock :=
  set_falls_to (Some (second_id id)) (set_comes_from (cb_comes_from b) (set_entries (cb_entries b) (new_block (firstn (i + 1) (cb_instrs b)) "sub_block"))).
Definition second_half (id : string) (i : nat) (b : cblock) : cblock :=
  set_cond (cb_cond b) (set_jump_to (cb_jump_to b) (set_falls_to (cb_falls_to b) (set_comes_from [first_id id] (new_block (skipn (i + 1) (cb_instrs b)) (cb_type b))))).
Definition edit (id : string) (b : cblock) : cblock := relist id (second_id id) (relink id (first_id id) b).

Lemma add_block_ok id b st g : (cl_blocks g = [] \/ st = true -> cl_start g = None) ->
  exists g', add_block id b st g = Ok g' /\ cl_blocks g' = dict_set id b (cl_blocks g)
    /\ cl_start g' = (if match cl_blocks g with [] => true | _ => false end || st then Some id else cl_start g)
    /\ (forall x, In x (cl_terminal g') <-> In x (cl_terminal g) \/ x = id /\ In (cb_type b) ["FunctionReturn"; "mainExit"; "terminal"])
    /\ (forall x, In x (cl_return g') <-> In x (cl_return g) \/ x = id /\ In (cb_type b) ["FunctionReturn"]).
Proof.
  intros H. unfold add_block. set (first := match cl_blocks g with [] => true | _ => false end || st) in *.
  assert (A : negb first || opt_eqb (cl_start g) None = true).
  { destruct first eqn:E; [|reflexivity]. rewrite H; [reflexivity|]. unfold first in E. apply orb_true_iff in E as [E|E]; [|auto]. destruct (cl_blocks g); [auto|discriminate]. }
  rewrite A. cbn [bind]. eexists. split; [reflexivity|]. cbn [cl_blocks cl_start cl_terminal cl_return].
  split; [reflexivity|]. split; [reflexivity|]. split; intros x.
  - destruct (mem (cb_type b) ["FunctionReturn"; "mainExit"; "terminal"]) eqn:M.
    + apply mem_In in M. rewrite in_app_iff. simpl (In x [id]). intuition congruence.
    + apply mem_false in M. tauto.
  - destruct (String.eqb_spec (cb_type b) "FunctionReturn") as [E|E].
    + rewrite in_app_iff, E. simpl. intuition congruence.
    + simpl. intuition congruence.
Qed.

Lemma split_block_lookup g id i b : consistent g -> splittable g id b ->
  exists g', split_block id i g = Ok g' /\ NoDup (map fst (cl_blocks g'))
    /\ (forall x, lookup x (cl_blocks g') = if String.eqb x (second_id id) then Some (second_half id i b)
          else if String.eqb x (first_id id) then Some (first_half id i b)
          else if String.eqb x id then None else option_map (edit id) (lookup x (cl_blocks g)))
    /\ cl_start g' = (if opt_eqb (Some id) (cl_start g) then Some (first_id id) else cl_start g)
    /\ (forall x, In x (cl_terminal g') <-> In x (cl_terminal g) /\ x <> id \/ x = second_id id /\ In (cb_type b) ["FunctionReturn"; "mainExit"; "terminal"])
    /\ (forall x, In x (cl_return g') <-> In x (cl_return g) /\ x <> id \/ x = second_id id /\ In (cb_type b) ["FunctionReturn"]).
Proof.
  intros C [L NL ND F1 F2]. unfold split_block, get_block. rewrite L. simpl (of_option _). cbn [bind].
  destruct (modify_successors_all id (first_id id) (not_eq_sym (first_ne id)) (cb_comes_from b) g) as (g1 & E1 & S1 & L1).
  { intros a. rewrite <- (c_links g C a id). unfold arrivals. rewrite L. reflexivity. }
  rewrite E1. cbn [bind]. assert (LB : lookup id (cl_blocks g1) = Some b) by (rewrite L1, L; simpl; rewrite relink_noop by auto; reflexivity).
  rewrite LB. simpl (of_option _). cbn [bind].
  destruct (modify_comes_from_both id (second_id id) (cb_jump_to b) (cb_falls_to b) g1) as (g2 & g3 & E2 & E3 & S3 & L3).
  { intros x I. assert (Q : 0 < departures g id x) by (unfold departures; rewrite L; apply count_In; exact I).
    rewrite <- (c_links g C) in Q. unfold arrivals in Q. rewrite L1. destruct (lookup x (cl_blocks g)) as [bx|] eqn:LX; [|lia].
    exists (relink id (first_id id) bx). split; [reflexivity|]. apply count_In. exact Q. }
  { exact ND. }
  rewrite E2. cbn [bind]. rewrite E3. cbn [bind].
  assert (SS : same_shape g g3) by (eapply same_shape_trans; eauto). destruct SS as (K & ST & TE & RE).
  assert (LG : forall x, x <> id -> lookup x (cl_blocks g3) = option_map (edit id) (lookup x (cl_blocks g))).
  { intros x N. rewrite L3, L1. fold (successors b). destruct (mem x (successors b)) eqn:M.
    - destruct (lookup x (cl_blocks g)); reflexivity.
    - destruct (lookup x (cl_blocks g)) as [bx|] eqn:LX; [|reflexivity]. simpl. f_equal. unfold edit. rewrite relist_noop; [reflexivity| |].
      + change (~ In id (cb_comes_from bx)). intros I. apply mem_false in M. apply M.
        assert (Q : 0 < arrivals g id x) by (unfold arrivals; rewrite LX; apply count_In; auto).
        rewrite (c_links g C) in Q. unfold departures in Q. rewrite L in Q. apply count_In; auto.
      + exact (c_entries g C x bx LX). }
  assert (LI : exists bi, lookup id (cl_blocks g3) = Some bi).
  { apply key_lookup. rewrite K. eapply lookup_In_key; eauto. }
  destruct LI as (bi & LI). unfold remove_block. rewrite LI. cbn [bind].
  set (g4 := {| cl_blocks := del id (cl_blocks g3) |}).
  assert (ST4 : cl_start g4 = if opt_eqb (Some id) (cl_start g) then None else cl_start g) by (unfold g4; simpl; rewrite ST; reflexivity).
  destruct (add_block_ok (first_id id) (first_half id i b) (opt_eqb (Some id) (cl_start g)) g4) as (g5 & E5 & B5 & ST5 & TE5 & RE5).
  { rewrite ST4. intros [H|H].
    - destruct (c_start g C) as (s & Hs & Is). rewrite Hs. simpl. destruct (String.eqb_spec id s) as [->|N]; [reflexivity|].
      exfalso. apply key_lookup in Is as (bs & Is). assert (Q := LG s (not_eq_sym N)). rewrite Is in Q. simpl in Q.
      assert (QQ : lookup s (cl_blocks g4) = Some (edit id bs)) by (unfold g4; simpl; rewrite lookup_del; destruct (String.eqb_spec id s); congruence).
      rewrite H in QQ. discriminate.
    - rewrite H. reflexivity. }
  unfold first_half in E5. rewrite E5. cbn [bind].
  destruct (add_block_ok (second_id id) (second_half id i b) false g5) as (g6 & E6 & B6 & ST6 & TE6 & RE6).
  { intros [H|H]; [|discriminate]. rewrite B5 in H. exfalso.
    assert (Q : lookup (first_id id) (dict_set (first_id id) (first_half id i b) (cl_blocks g4)) = Some (first_half id i b)) by (rewrite lookup_dict_set, String.eqb_refl; reflexivity).
    rewrite H in Q. discriminate. }
  unfold second_half in E6. rewrite E6. exists g6. split; [reflexivity|]. split; [|split; [|split; [|split]]].
  - rewrite B6, B5. apply dict_set_NoDup, dict_set_NoDup. unfold g4. simpl. apply NoDup_del. rewrite K. apply c_keys; auto.
  - intros x. rewrite B6, B5, !lookup_dict_set. rewrite (String.eqb_sym x (second_id id)), (String.eqb_sym x (first_id id)).
    destruct (second_id id =? x)%string; [reflexivity|]. destruct (first_id id =? x)%string; [reflexivity|].
    unfold g4. simpl. rewrite lookup_del, String.eqb_sym. destruct (String.eqb_spec x id); [reflexivity|]. apply LG; auto.
  - rewrite ST6. destruct (cl_blocks g5) eqn:E5'.
    + exfalso. assert (Q : lookup (first_id id) (dict_set (first_id id) (first_half id i b) (cl_blocks g4)) = Some (first_half id i b)) by (rewrite lookup_dict_set, String.eqb_refl; reflexivity).
      rewrite <- B5 in Q. discriminate.
    + cbn [orb]. rewrite ST5, ST4. destruct (opt_eqb (Some id) (cl_start g)) eqn:EI; [rewrite orb_true_r; reflexivity|].
      destruct (cl_blocks g4) eqn:E4; [|reflexivity]. exfalso.
      destruct (c_start g C) as (s & Hs & Is). rewrite Hs in EI. simpl in EI. destruct (String.eqb_spec id s) as [->|N]; [discriminate|].
      apply key_lookup in Is as (bs & Is). assert (Q := LG s (not_eq_sym N)). rewrite Is in Q. simpl in Q.
      assert (QQ : lookup s (cl_blocks g4) = Some (edit id bs)) by (unfold g4; simpl; rewrite lookup_del; destruct (String.eqb_spec id s); congruence).
      rewrite E4 in QQ. discriminate.
  - intros x. rewrite TE6, TE5. unfold g4. simpl (cl_terminal _). rewrite TE, without_In. simpl (cb_type (first_half id i b)). simpl (cb_type (second_half id i b)). simpl. intuition discriminate.
  - intros x. rewrite RE6, RE5. unfold g4. simpl (cl_return _). rewrite RE, without_In. simpl (cb_type (first_half id i b)). simpl (cb_type (second_half id i b)). simpl. intuition discriminate.
Qed.

Ltac eqs := repeat match goal with
  | |- context [String.eqb ?a ?a] => rewrite (String.eqb_refl a)
  | |- context [String.eqb ?a ?b] => destruct (String.eqb_spec a b); try congruence
  end.

Lemma has_type_iff types g x : has_type types g x <-> exists blk, lookup x (cl_blocks g) = Some blk /\ In (cb_type blk) types.
Proof. reflexivity. Qed.

Lemma split_consistent g id i b g' : consistent g -> splittable g id b -> split_block id i g = Ok g' -> consistent g'.
Proof.
  intros C S E. destruct (split_block_lookup g id i b C S) as (g'' & E' & K & LG & ST & TE & RE). rewrite E in E'. injection E' as <-.
  destruct S as [L NL ND F1 F2]. assert (N1 := first_ne id). assert (N2 := second_ne id). assert (N3 := halves_ne id).
  set (f := first_id id) in *. set (s := second_id id) in *.
  assert (TY : forall types x, ~ In "sub_block" types -> has_type types g' x <-> (has_type types g x /\ x <> id) \/ x = s /\ In (cb_type b) types).
  { intros types x NS. unfold has_type. rewrite LG. destruct (String.eqb_spec x s) as [->|Ns].
    - split.
      + intros (blk & H & I). injection H as <-. right. auto.
      + intros [[(blk & H & I) _]|[_ I]]; [apply lookup_In_key in H; tauto|]. eexists; split; [reflexivity|exact I].
    - destruct (String.eqb_spec x f) as [->|Nf].
      + split.
        * intros (blk & H & I). injection H as <-. simpl in I. tauto.
        * intros [[(blk & H & I) _]|[? _]]; [apply lookup_In_key in H; tauto|congruence].
      + destruct (String.eqb_spec x id) as [->|Ni].
        * split; [intros (blk & H & _); discriminate|]. intros [[_ ?]|[? _]]; congruence.
        * split.
          -- intros (blk & H & I). left. split; [|auto]. destruct (lookup x (cl_blocks g)) as [bx|]; [|discriminate]. injection H as <-. eauto.
          -- intros [[(blk & H & I) _]|[? _]]; [|congruence]. rewrite H. eexists; split; [reflexivity|exact I]. }
  constructor.
  - exact K.
  - intros x y. assert (Z1 : forall z, departures g f z = 0) by (intros; apply absent_departures; auto).
    assert (Z2 : forall z, departures g s z = 0) by (intros; apply absent_departures; auto).
    assert (Z3 : forall z, departures g z f = 0) by (intros; rewrite <- (c_links g C); apply absent_arrivals; auto).
    assert (Z4 : forall z, departures g z s = 0) by (intros; rewrite <- (c_links g C); apply absent_arrivals; auto).
    assert (Z5 : departures g id id = 0) by (unfold departures; rewrite L; apply count_zero; auto).
    assert (A : arrivals g' x y = if String.eqb y s then (if String.eqb x f then 1 else 0) else if String.eqb y f then departures g x id
                 else if String.eqb y id then 0 else if String.eqb x s then departures g id y else if String.eqb x id then 0 else departures g x y).
    { unfold arrivals. rewrite LG. destruct (String.eqb_spec y s).
      - simpl. rewrite Nat.add_0_r, String.eqb_sym. fold f. reflexivity.
      - destruct (String.eqb_spec y f).
        + simpl. rewrite <- (c_links g C). unfold arrivals. rewrite L. reflexivity.
        + destruct (String.eqb_spec y id); [reflexivity|].
          destruct (lookup y (cl_blocks g)) as [b0|] eqn:LY; simpl.
          * fold s. rewrite count_subst by auto.
            assert (AR : forall z, count z (cb_comes_from b0) = departures g z y) by (intros z; rewrite <- (c_links g C); unfold arrivals; rewrite LY; reflexivity).
            rewrite !AR, Z2. reflexivity.
          * assert (AR : forall z, departures g z y = 0) by (intros z; rewrite <- (c_links g C); unfold arrivals; rewrite LY; reflexivity).
            rewrite !AR. destruct (x =? s)%string, (x =? id)%string; reflexivity. }
    assert (D : departures g' x y = if String.eqb x s then departures g id y else if String.eqb x f then (if String.eqb y s then 1 else 0)
                 else if String.eqb x id then 0 else if String.eqb y f then departures g x id else if String.eqb y id then 0 else departures g x y).
    { unfold departures at 1. rewrite LG. destruct (String.eqb_spec x s).
      - unfold departures. rewrite L. reflexivity.
      - destruct (String.eqb_spec x f).
        + unfold successors. simpl. rewrite Nat.add_0_r, String.eqb_sym. fold s. reflexivity.
        + destruct (String.eqb_spec x id); [reflexivity|].
          destruct (lookup x (cl_blocks g)) as [b0|] eqn:LY; simpl.
          * change (successors (edit id b0)) with (successors (relink id f b0)). rewrite successors_relink, count_subst by auto.
            assert (DE : forall z, count z (successors b0) = departures g x z) by (intros z; unfold departures; rewrite LY; reflexivity).
            rewrite !DE, Z3. reflexivity.
          * assert (DE : forall z, departures g x z = 0) by (intros z; unfold departures; rewrite LY; reflexivity).
            rewrite !DE. destruct (y =? f)%string, (y =? id)%string; reflexivity. }
    rewrite A, D. destruct (String.eqb_spec y s) as [->|Ys].
    + destruct (String.eqb_spec x f) as [->|]; [destruct (String.eqb_spec f s); [congruence|reflexivity]|].
      rewrite !Z4. destruct (String.eqb_spec s f); [congruence|]. destruct (String.eqb_spec s id); [congruence|].
      destruct (x =? s)%string, (x =? id)%string; reflexivity.
    + destruct (String.eqb_spec y f) as [->|Yf].
      * destruct (String.eqb_spec x s) as [->|]; [rewrite Z2, Z3; reflexivity|]. destruct (String.eqb_spec x f) as [->|]; [rewrite Z1; reflexivity|].
        destruct (String.eqb_spec x id) as [->|]; [exact Z5|]. reflexivity.
      * destruct (String.eqb_spec y id) as [->|Yi].
        -- rewrite Z5. destruct (x =? s)%string, (x =? f)%string, (x =? id)%string; reflexivity.
        -- destruct (String.eqb_spec x s) as [->|]; [reflexivity|]. destruct (String.eqb_spec x f) as [->|]; [|reflexivity].
           destruct (String.eqb_spec f id); [congruence|]. apply Z1.
  - intros x blk. rewrite LG. destruct (String.eqb_spec x s) as [->|]; [|destruct (String.eqb_spec x f) as [->|]; [|destruct (String.eqb_spec x id); [discriminate|]]].
    + intros [= <-]. simpl. intros ? [].
    + intros [= <-]. simpl. exact (c_entries g C id b L).
    + destruct (lookup x (cl_blocks g)) as [b0|] eqn:LX; [|discriminate]. intros [= <-]. simpl.
      assert (I := c_entries g C x b0 LX). intros z Hz. apply in_map_iff in Hz as (w & <- & Hw). apply in_map. auto.
  - rewrite ST. destruct (c_start g C) as (st & Hs & Is). rewrite Hs. simpl. destruct (String.eqb_spec id st) as [->|N].
    + exists f. split; [reflexivity|]. apply (lookup_In_key _ (first_half st i b)). rewrite LG. destruct (String.eqb_spec f s); [congruence|]. rewrite String.eqb_refl. reflexivity.
    + exists st. split; [reflexivity|]. apply key_lookup in Is as (bs & Is). apply (lookup_In_key _ (edit id bs)). rewrite LG.
      destruct (String.eqb_spec st s) as [->|]; [apply lookup_In_key in Is; tauto|]. destruct (String.eqb_spec st f) as [->|]; [apply lookup_In_key in Is; tauto|].
      destruct (String.eqb_spec st id); [congruence|]. rewrite Is. reflexivity.
  - intros x. rewrite TE, TY, (c_terminal g C); [reflexivity|]. simpl. intuition discriminate.
  - intros x. rewrite RE, TY, (c_return g C); [reflexivity|]. simpl. intuition discriminate.
Qed.

(** C22: splitting a block. *)
Theorem split_block_preserves_partial : forall g id i b, consistent g -> splittable g id b ->
  exists g' bf bs, split_block id i g = Ok g' /\ consistent g'
  /\ lookup id (cl_blocks g') = None /\ lookup (first_id id) (cl_blocks g') = Some bf /\ lookup (second_id id) (cl_blocks g') = Some bs
  /\ cb_instrs bf = firstn (i + 1) (cb_instrs b) /\ cb_instrs bf ++ cb_instrs bs = cb_instrs b
  /\ cb_jump_to bf = None /\ cb_falls_to bf = Some (second_id id) /\ cb_comes_from bf = cb_comes_from b /\ cb_entries bf = cb_entries b
  /\ cb_type bs = cb_type b /\ cb_cond bs = cb_cond b /\ cb_jump_to bs = cb_jump_to b /\ cb_falls_to bs = cb_falls_to b /\ cb_comes_from bs = [first_id id]
  /\ (forall x, In x (map fst (cl_blocks g')) <-> x = first_id id \/ x = second_id id \/ In x (map fst (cl_blocks g)) /\ x <> id)
  /\ (forall x bx, lookup x (cl_blocks g) = Some bx -> x <> id ->
        exists bx', lookup x (cl_blocks g') = Some bx' /\ relinked id (first_id id) id (second_id id) bx bx')
  /\ cl_start g' = (if opt_eqb (Some id) (cl_start g) then Some (first_id id) else cl_start g).
Proof.
  intros g id i b C S. destruct (split_block_lookup g id i b C S) as (g' & E & K & LG & ST & TE & RE).
  assert (C' := split_consistent g id i b g' C S E). destruct S as [L NL ND F1 F2].
  assert (N1 := first_ne id). assert (N2 := second_ne id). assert (N3 := halves_ne id).
  exists g', (first_half id i b), (second_half id i b). split; [exact E|]. split; [exact C'|].
  split. { rewrite LG. eqs; reflexivity. }
  split. { rewrite LG. eqs; reflexivity. }
  split. { rewrite LG. eqs; reflexivity. }
  split; [reflexivity|]. split; [apply firstn_skipn|]. do 9 (split; [reflexivity|]). split; [|split; [|exact ST]].
  - intros x. split.
    + intros H. apply key_lookup in H as (bx & H). rewrite LG in H. destruct (String.eqb_spec x (second_id id)); [auto|].
      destruct (String.eqb_spec x (first_id id)); [auto|]. destruct (String.eqb_spec x id); [discriminate|]. right; right. split; [|auto].
      destruct (lookup x (cl_blocks g)) eqn:LX; [|discriminate]. eapply lookup_In_key; eauto.
    + intros [->|[->|[H N]]].
      * apply (lookup_In_key _ (first_half id i b)). rewrite LG. eqs; reflexivity.
      * apply (lookup_In_key _ (second_half id i b)). rewrite LG. eqs; reflexivity.
      * destruct (key_lookup x _ H) as (bx & HX). apply (lookup_In_key _ (edit id bx)). rewrite LG, HX. eqs; reflexivity.
  - intros x bx H N. exists (edit id bx). split; [|repeat split].
    rewrite LG, H. apply lookup_In_key in H. eqs; reflexivity.
Qed.

(** Executions: the walks of the new graph are those of the old one, with the
    two halves in the place of the block, and they run the same code. *)
Definition expand (id : string) (p : list string) : list string :=
  flat_map (fun x => if String.eqb x id then [first_id id; second_id id] else [x]) p.

Lemma edge_departures g a b : edge g a b <-> 0 < departures g a b.
Proof.
  unfold edge, departures. split.
  - intros (blk & L & H). rewrite L. apply count_In. unfold successors. apply in_app_iff. destruct H as [-> | ->]; simpl; auto.
  - destruct (lookup a (cl_blocks g)) as [blk|] eqn:L; [|lia]. intros H. apply count_In in H. exists blk. split; [reflexivity|].
    unfold successors in H. apply in_app_iff in H as [H|H]; [left; destruct (cb_jump_to blk)|right; destruct (cb_falls_to blk)]; simpl in H; try tauto; destruct H as [->|[]]; reflexivity.
Qed.

Lemma split_departures g id i b g' x y : consistent g -> splittable g id b -> split_block id i g = Ok g' ->
  departures g' x y = if String.eqb x (second_id id) then departures g id y else if String.eqb x (first_id id) then (if String.eqb y (second_id id) then 1 else 0)
                 else if String.eqb x id then 0 else if String.eqb y (first_id id) then departures g x id else if String.eqb y id then 0 else departures g x y.
Proof.
  intros C S E. destruct (split_block_lookup g id i b C S) as (g'' & E' & K & LG & ST & TE & RE). rewrite E in E'. injection E' as <-.
  destruct S as [L NL ND F1 F2]. assert (N1 := first_ne id). set (f := first_id id) in *. set (s := second_id id) in *.
  assert (Z3 : forall z, departures g z f = 0) by (intros; rewrite <- (c_links g C); apply absent_arrivals; auto).
  unfold departures at 1. rewrite LG. destruct (String.eqb_spec x s).
  - unfold departures. rewrite L. reflexivity.
  - destruct (String.eqb_spec x f).
    + unfold successors. simpl. rewrite Nat.add_0_r, String.eqb_sym. fold s. reflexivity.
    + destruct (String.eqb_spec x id); [reflexivity|].
      destruct (lookup x (cl_blocks g)) as [b0|] eqn:LY; simpl.
      * change (successors (edit id b0)) with (successors (relink id f b0)). rewrite successors_relink, count_subst by auto.
        assert (DE : forall z, count z (successors b0) = departures g x z) by (intros z; unfold departures; rewrite LY; reflexivity).
        rewrite !DE, Z3. reflexivity.
      * assert (DE : forall z, departures g x z = 0) by (intros z; unfold departures; rewrite LY; reflexivity).
        rewrite !DE. destruct (y =? f)%string, (y =? id)%string; reflexivity.
Qed.

Lemma edge_source g a b : edge g a b -> In a (map fst (cl_blocks g)).
Proof. intros (blk & L & _). eapply lookup_In_key; eauto. Qed.
Lemma edge_target g a b : consistent g -> edge g a b -> In b (map fst (cl_blocks g)).
Proof.
  intros C H. apply edge_departures in H. rewrite <- (c_links g C) in H. unfold arrivals in H.
  destruct (lookup b (cl_blocks g)) eqn:L; [|lia]. eapply lookup_In_key; eauto.
Qed.
Lemma walk_blocks g p x : walk g p -> In x p -> In x (map fst (cl_blocks g)).
Proof.
  induction p as [|a p IH]; [simpl; tauto|]. destruct p as [|b p].
  - simpl. intros H [<-|[]]. exact H.
  - intros [E W] [<-|I]; [eapply edge_source; eauto|]. apply IH; auto.
Qed.

Theorem split_block_walks : forall g id i b g', consistent g -> splittable g id b -> split_block id i g = Ok g' ->
  (forall p, walk g p -> walk g' (expand id p) /\ trace g' (expand id p) = trace g p)
  /\ (forall q, walk g' q -> hd_error q <> Some (second_id id) -> (forall q', q <> q' ++ [first_id id]) ->
        exists p, walk g p /\ q = expand id p).
Proof.
  intros g id i b g' C S E. assert (D := fun x y => split_departures g id i b g' x y C S E).
  destruct (split_block_lookup g id i b C S) as (g'' & E' & K & LG & ST & TE & RE). rewrite E in E'. injection E' as <-.
  destruct S as [L NL ND F1 F2]. assert (N1 := first_ne id). assert (N2 := second_ne id). assert (N3 := halves_ne id).
  set (f := first_id id) in *. set (s := second_id id) in *.
  assert (Z1 : forall z, departures g f z = 0) by (intros; apply absent_departures; auto).
  assert (Z2 : forall z, departures g s z = 0) by (intros; apply absent_departures; auto).
  assert (Z3 : forall z, departures g z f = 0) by (intros; rewrite <- (c_links g C); apply absent_arrivals; auto).
  assert (Z4 : forall z, departures g z s = 0) by (intros; rewrite <- (c_links g C); apply absent_arrivals; auto).
  assert (Z5 : departures g id id = 0) by (unfold departures; rewrite L; apply count_zero; auto).
  assert (KS : In s (map fst (cl_blocks g'))) by (apply (lookup_In_key _ (second_half id i b)); rewrite LG; eqs; reflexivity).
  assert (KF : In f (map fst (cl_blocks g'))) by (apply (lookup_In_key _ (first_half id i b)); rewrite LG; eqs; reflexivity).
  assert (KO : forall x, x <> id -> In x (map fst (cl_blocks g)) -> In x (map fst (cl_blocks g'))).
  { intros x N I. destruct (key_lookup x _ I) as (bx & HX). apply (lookup_In_key _ (edit id bx)). rewrite LG, HX. eqs; reflexivity. }
  assert (EFS : edge g' f s) by (apply edge_departures; rewrite D; eqs; lia).
  split.
  - intros p W. split.
    + induction p as [|x p IH]; [exact W|]. destruct p as [|y p].
      * simpl in *. destruct (String.eqb_spec x id); simpl; [split; auto|]. apply KO; auto.
      * destruct W as [EG W]. specialize (IH W). apply edge_departures in EG.
        assert (X : x <> f /\ x <> s) by (split; intros ->; rewrite ?Z1, ?Z2 in EG; lia).
        assert (Y : y <> f /\ y <> s) by (split; intros ->; rewrite ?Z3, ?Z4 in EG; lia).
        assert (EG' : edge g' (if String.eqb x id then s else x) (if String.eqb y id then f else y)).
        { apply edge_departures. rewrite D. destruct (String.eqb_spec x id) as [->|Nx], (String.eqb_spec y id) as [->|Ny].
          - lia.
          - rewrite String.eqb_refl. exact EG.
          - destruct X, Y. eqs.
          - destruct X, Y. eqs. }
        change (expand id (x :: y :: p)) with ((if String.eqb x id then [f; s] else [x]) ++ expand id (y :: p)).
        assert (HY : exists r, expand id (y :: p) = (if String.eqb y id then f else y) :: r).
        { simpl. destruct (y =? id)%string; simpl; eauto. }
        destruct HY as (r & HY). rewrite HY in *.
        destruct (String.eqb_spec x id); cbn [app walk]; [split; [exact EFS|]|]; (split; [exact EG'|exact IH]).
    + assert (AO : forall x, x <> id -> In x (map fst (cl_blocks g)) -> actions g' x = actions g x).
      { intros x N I. destruct (key_lookup x _ I) as (bx & HX). unfold actions. rewrite LG, HX. eqs; reflexivity. }
      assert (AI : actions g' f ++ actions g' s = actions g id).
      { unfold actions. rewrite L, !LG. eqs. simpl. rewrite <- map_app, firstn_skipn. reflexivity. }
      assert (BF : forall y, branch g' f y = []) by (intros y; unfold branch; rewrite LG; eqs; reflexivity).
      assert (BR : forall x y, edge g x y -> branch g' (if String.eqb x id then s else x) (if String.eqb y id then f else y) = branch g x y).
      { intros x y EG. assert (In x (map fst (cl_blocks g))) as KX by (eapply edge_source; eauto). assert (DG := proj1 (edge_departures g x y) EG).
        assert (Y : y <> f) by (intros ->; rewrite Z3 in DG; lia).
        destruct (String.eqb_spec x id) as [->|Nx].
        - assert (y <> id) by (intros ->; lia). unfold branch. rewrite L, LG, String.eqb_refl. eqs; reflexivity.
        - destruct (key_lookup x _ KX) as (bx & HX). unfold branch. rewrite LG, HX. cbn [option_map]. assert (CE : cb_cond (edit id bx) = cb_cond bx) by reflexivity.
          assert (JE : cb_jump_to (edit id bx) = option_map (subst id f) (cb_jump_to bx)) by reflexivity.
          eqs. all: rewrite CE, JE. all: destruct (cb_cond bx); [|reflexivity]. all: do 2 f_equal.
          all: destruct (cb_jump_to bx) as [z|] eqn:J; [|reflexivity]. all: simpl. all: assert (NZ : z <> f) by (intros ->; assert (Q := Z3 x); unfold departures in Q; rewrite HX in Q; unfold successors in Q; rewrite J in Q; simpl in Q; rewrite String.eqb_refl in Q; lia).
          all: unfold subst; destruct (String.eqb_spec z id); destruct (String.eqb_spec z y); destruct (String.eqb_spec f f); try congruence; eqs; try reflexivity; try congruence. }
      induction p as [|x p IH]; [reflexivity|]. destruct p as [|y p].
      * simpl. simpl in W. destruct (String.eqb_spec x id) as [->|Nx]; simpl; rewrite ?app_nil_r; [|apply AO; auto]. fold f s. rewrite BF. simpl. exact AI.
      * destruct W as [EG W]. specialize (IH W). assert (In x (map fst (cl_blocks g))) as KX by (eapply edge_source; eauto). assert (B := BR x y EG).
        change (expand id (x :: y :: p)) with ((if String.eqb x id then [f; s] else [x]) ++ expand id (y :: p)).
        assert (HY : exists r, expand id (y :: p) = (if String.eqb y id then f else y) :: r).
        { simpl. destruct (y =? id)%string; simpl; eauto. }
        destruct HY as (r & HY).
        change (trace g (x :: y :: p)) with (actions g x ++ branch g x y ++ trace g (y :: p)). rewrite <- IH, <- B.
        destruct (String.eqb_spec x id) as [->|Nx]; rewrite HY; cbn [app trace].
        -- rewrite BF. cbn [app]. rewrite <- AI, <- app_assoc. reflexivity.
        -- rewrite (AO x Nx KX). reflexivity.
  - assert (G : forall n q, length q <= n -> walk g' q -> hd_error q <> Some s -> (forall q', q <> q' ++ [f]) ->
      exists p, walk g p /\ q = expand id p /\ hd_error q = match p with [] => None | x :: _ => Some (if String.eqb x id then f else x) end).
    { induction n as [|n IH]; intros q Hn W H1 H2; [destruct q; [contradiction|simpl in Hn; lia]|].
      destruct q as [|x q]; [contradiction|]. assert (Xs : x <> s) by (intros ->; apply H1; reflexivity).
      assert (TL : forall y r, q = y :: r -> y <> s -> exists p, walk g p /\ q = expand id p /\ exists x0 p0, p = x0 :: p0 /\ y = if String.eqb x0 id then f else x0).
      { intros y r -> Ny. destruct (IH (y :: r)) as (p & Wp & Ep & Hp).
        - simpl in *. lia.
        - destruct W as [_ W]. exact W.
        - intros [=]; congruence.
        - intros q' Q. apply (H2 (x :: q')). rewrite Q. reflexivity.
        - exists p. split; [auto|]. split; [auto|]. destruct p as [|x0 p0]; [contradiction|]. exists x0, p0. split; [reflexivity|]. simpl in Hp. injection Hp as ->. reflexivity. }
      destruct (String.eqb_spec x f) as [->|Xf].
      - destruct q as [|y q]; [exfalso; apply (H2 []); reflexivity|]. destruct W as [EG W]. apply edge_departures in EG. rewrite D in EG.
        destruct (String.eqb_spec f s); [congruence|]. rewrite String.eqb_refl in EG. destruct (String.eqb_spec y s) as [->|]; [|lia]. clear EG TL.
        destruct q as [|z q].
        + exists [id]. simpl. rewrite String.eqb_refl. split; [eapply lookup_In_key; eauto|]. split; reflexivity.
        + destruct W as [EG W]. apply edge_departures in EG. rewrite D, String.eqb_refl in EG.
          destruct (IH (z :: q)) as (p & Wp & Ep & Hp).
          * simpl in *. lia.
          * exact W.
          * intros [= ->]. rewrite Z4 in EG. lia.
          * intros q' Q. apply (H2 (f :: s :: q')). rewrite Q. reflexivity.
          * destruct p as [|x0 p0]; [contradiction|]. simpl in Hp. injection Hp as Hp.
            assert (z <> f) by (intros ->; rewrite Z3 in EG; lia).
            destruct (String.eqb_spec x0 id) as [->|]; [congruence|]. subst z.
            exists (id :: x0 :: p0). split; [split; [apply edge_departures; exact EG|exact Wp]|].
            rewrite Ep. simpl. rewrite String.eqb_refl. split; reflexivity.
      - assert (Xk : In x (map fst (cl_blocks g'))) by (eapply walk_blocks; eauto; simpl; auto).
        assert (Xi : x <> id). { intros ->. apply key_lookup in Xk as (bx & Q). rewrite LG in Q. revert Q. eqs; discriminate. }
        assert (XG : In x (map fst (cl_blocks g))).
        { apply key_lookup in Xk as (bx & Q). rewrite LG in Q. revert Q. eqs. destruct (lookup x (cl_blocks g)) eqn:LX; [|discriminate]. intros _. eapply lookup_In_key; eauto. }
        destruct q as [|y q].
        + exists [x]. simpl. destruct (String.eqb_spec x id); [congruence|]. auto.
        + destruct W as [EG W]. apply edge_departures in EG. rewrite D in EG.
          destruct (String.eqb_spec x s); [congruence|]. destruct (String.eqb_spec x f); [congruence|]. destruct (String.eqb_spec x id); [congruence|].
          assert (Ys : y <> s). { intros ->. revert EG. eqs. rewrite Z4. lia. }
          destruct (TL y q eq_refl Ys) as (p & Wp & Ep & x0 & p0 & -> & Y).
          exists (x :: x0 :: p0). split; [split; [|exact Wp]|].
          * apply edge_departures. destruct (String.eqb_spec x0 id) as [->|N0].
            -- subst y. revert EG. eqs. auto.
            -- subst y. revert EG. destruct (String.eqb_spec x0 f) as [->|]; [|destruct (String.eqb_spec x0 id); [congruence|auto]].
               intros _. exfalso. apply F1. eapply walk_blocks; [exact Wp|simpl; auto].
          * rewrite Ep. simpl. destruct (String.eqb_spec x id); [congruence|]. auto. }
    intros q W H1 H2. destruct (G (length q) q (le_n _) W H1 H2) as (p & Wp & Ep & _). eauto.
Qed.

(** ** Merging *)
Record mergeable (g : clist) (a b : string) (ba bb : cblock) : Prop := {
  mg_first : lookup a (cl_blocks g) = Some ba;
  mg_second : lookup b (cl_blocks g) = Some bb;
  mg_ne : a <> b;
  mg_only_succ : forall x, In x (successors ba) <-> x = b;
  mg_only_pred : forall x, In x (cb_comes_from bb) -> x = a;
  mg_no_loop : ~ In a (successors bb);
  mg_targets : NoDup (successors bb);
  mg_start : cl_start g <> Some b
}.
Definition merged (ba bb : cblock) : cblock :=
  set_falls_to (cb_falls_to bb) (set_jump_to (cb_jump_to bb) (set_comes_from (cb_comes_from ba)
    (set_cond (cb_cond bb) (set_entries (cb_entries ba) (new_block (cb_instrs ba ++ cb_instrs bb) (cb_type bb)))))).

Lemma merge_lookup g a b ba bb : consistent g -> mergeable g a b ba bb ->
  exists g', merge_blocks a b g = Ok g' /\ NoDup (map fst (cl_blocks g'))
    /\ (forall x, lookup x (cl_blocks g') = if String.eqb x a then Some (merged ba bb) else if String.eqb x b then None
          else option_map (relist b a) (lookup x (cl_blocks g)))
    /\ cl_start g' = cl_start g
    /\ (forall x, In x (cl_terminal g') <-> In x (cl_terminal g) /\ x <> a /\ x <> b \/ x = a /\ In (cb_type bb) ["FunctionReturn"; "mainExit"; "terminal"])
    /\ (forall x, In x (cl_return g') <-> In x (cl_return g) /\ x <> a /\ x <> b \/ x = a /\ In (cb_type bb) ["FunctionReturn"]).
Proof.
  intros C [LA LB N SA PB NL ND NS]. unfold merge_blocks, get_block. rewrite LA, LB. simpl (of_option _). cbn [bind].
  assert (W : without a (cb_comes_from bb) = []).
  { unfold without. revert PB. generalize (cb_comes_from bb). induction l as [|x l IH]; intros H; [reflexivity|]. simpl.
    rewrite (H x) by (simpl; auto). rewrite String.eqb_refl. apply IH. intros; apply H; simpl; auto. }
  rewrite W. rewrite app_nil_r. destruct (modify_successors_same a (cb_comes_from ba) g) as (g1 & E1 & S1 & L1).
  { intros x I. rewrite <- (c_links g C). unfold arrivals. rewrite LA. apply count_In; auto. }
  rewrite E1. cbn [bind for_each].
  destruct (modify_comes_from_both b a (cb_jump_to bb) (cb_falls_to bb) g1) as (g3 & g4 & E3 & E4 & S4 & L4).
  { intros x I. assert (Q : 0 < departures g b x) by (unfold departures; rewrite LB; apply count_In; exact I).
    rewrite <- (c_links g C) in Q. unfold arrivals in Q. rewrite L1. destruct (lookup x (cl_blocks g)) as [bx|] eqn:LX; [|lia].
    exists bx. split; [reflexivity|]. apply count_In. exact Q. }
  { exact ND. }
  rewrite E3. cbn [bind]. rewrite E4. cbn [bind].
  assert (SS : same_shape g g4) by (eapply same_shape_trans; eauto). destruct SS as (K & ST & TE & RE).
  assert (LG : forall x, lookup x (cl_blocks g4) = option_map (relist b a) (lookup x (cl_blocks g))).
  { intros x. rewrite L4, L1. fold (successors bb). destruct (mem x (successors bb)) eqn:M; [reflexivity|].
    destruct (lookup x (cl_blocks g)) as [bx|] eqn:LX; [|reflexivity]. simpl. f_equal. rewrite relist_noop; [reflexivity| |exact (c_entries g C x bx LX)].
    intros I. apply mem_false in M. apply M. assert (Q : 0 < arrivals g b x) by (unfold arrivals; rewrite LX; apply count_In; auto).
    rewrite (c_links g C) in Q. unfold departures in Q. rewrite LB in Q. apply count_In; auto. }
  unfold remove_block. rewrite LG, LA. cbn [option_map bind]. cbn [cl_blocks]. rewrite lookup_del. destruct (String.eqb_spec a b); [congruence|].
  rewrite LG, LB. cbn [option_map bind cl_start cl_terminal cl_return cl_blocks].
  set (g6 := {| cl_blocks := del b (del a (cl_blocks g4)) |}).
  assert (ST6 : cl_start g6 = if opt_eqb (Some a) (cl_start g) then None else cl_start g).
  { unfold g6. cbn [cl_start]. rewrite ST. destruct (opt_eqb (Some a) (cl_start g)) eqn:EA; [reflexivity|].
    destruct (opt_eqb (Some b) (cl_start g)) eqn:EB; [|reflexivity]. apply opt_eqb_eq in EB. congruence. }
  assert (L6 : forall x, lookup x (cl_blocks g6) = if String.eqb x a then None else if String.eqb x b then None else option_map (relist b a) (lookup x (cl_blocks g))).
  { intros x. unfold g6. cbn [cl_blocks]. rewrite !lookup_del, LG, (String.eqb_sym b x), (String.eqb_sym a x). destruct (x =? b)%string, (x =? a)%string; reflexivity. }
  assert (EM : cl_blocks g6 = [] -> opt_eqb (Some a) (cl_start g) = true).
  { intros H. destruct (c_start g C) as (st & Hs & Is). rewrite Hs. simpl. destruct (String.eqb_spec a st) as [->|Na]; [reflexivity|]. exfalso.
    apply key_lookup in Is as (bs & Is). assert (Q := L6 st). rewrite H, Is in Q. revert Q. destruct (String.eqb_spec st a); [congruence|]. destruct (String.eqb_spec st b); [congruence|]. discriminate. }
  destruct (add_block_ok a (merged ba bb) (opt_eqb (Some a) (cl_start g)) g6) as (g7 & E7 & B7 & ST7 & TE7 & RE7).
  { rewrite ST6. intros [H|H]; [rewrite (EM H); reflexivity|rewrite H; reflexivity]. }
  unfold merged in E7. rewrite E7. exists g7. split; [reflexivity|]. split; [|split; [|split; [|split]]].
  - rewrite B7. apply dict_set_NoDup. unfold g6. cbn [cl_blocks]. apply NoDup_del, NoDup_del. rewrite K. apply c_keys; auto.
  - intros x. rewrite B7, lookup_dict_set, L6, (String.eqb_sym a x). destruct (x =? a)%string; reflexivity.
  - rewrite ST7, ST6. destruct (opt_eqb (Some a) (cl_start g)) eqn:EA.
    + rewrite orb_true_r. apply opt_eqb_eq in EA. exact EA.
    + destruct (cl_blocks g6); [specialize (EM eq_refl); congruence|]. reflexivity.
  - intros x. rewrite TE7. unfold g6. cbn [cl_terminal]. rewrite TE, !without_In. cbn [cb_type merged]. simpl (cb_type (merged ba bb)). tauto.
  - intros x. rewrite RE7. unfold g6. cbn [cl_return]. rewrite RE, !without_In. simpl (cb_type (merged ba bb)). tauto.
Qed.

Lemma merge_no_self g a b ba bb : consistent g -> mergeable g a b ba bb -> departures g b b = 0.
Proof.
  intros C [LA LB N SA PB NL ND NS]. rewrite <- (c_links g C). unfold arrivals. rewrite LB. apply count_zero. intros I. apply PB in I. congruence.
Qed.
Lemma merge_departures g a b ba bb g' x y : consistent g -> mergeable g a b ba bb -> merge_blocks a b g = Ok g' ->
  departures g' x y = if String.eqb x a then departures g b y else if String.eqb x b then 0 else departures g x y.
Proof.
  intros C M E. destruct (merge_lookup g a b ba bb C M) as (g'' & E' & K & LG & ST & TE & RE). rewrite E in E'. injection E' as <-.
  destruct M as [LA LB N SA PB NL ND NS]. unfold departures at 1. rewrite LG. destruct (String.eqb_spec x a).
  - unfold departures. rewrite LB. reflexivity.
  - destruct (String.eqb_spec x b); [reflexivity|]. unfold departures. destruct (lookup x (cl_blocks g)); reflexivity.
Qed.

Lemma merge_consistent g a b ba bb g' : consistent g -> mergeable g a b ba bb -> merge_blocks a b g = Ok g' -> consistent g'.
Proof.
  intros C M E. assert (D := fun x y => merge_departures g a b ba bb g' x y C M E). assert (Z := merge_no_self g a b ba bb C M).
  destruct (merge_lookup g a b ba bb C M) as (g'' & E' & K & LG & ST & TE & RE). rewrite E in E'. injection E' as <-.
  destruct M as [LA LB N SA PB NL ND NS].
  assert (ZA : forall y, y <> b -> departures g a y = 0) by (intros y Ny; unfold departures; rewrite LA; apply count_zero; rewrite SA; auto).
  assert (ZB : forall x, x <> a -> departures g x b = 0) by (intros x Nx; rewrite <- (c_links g C); unfold arrivals; rewrite LB; apply count_zero; intros I; apply Nx; auto).
  assert (ZC : departures g b a = 0) by (unfold departures; rewrite LB; apply count_zero; auto).
  assert (TY : forall types x, has_type types g' x <-> has_type types g x /\ x <> a /\ x <> b \/ x = a /\ In (cb_type bb) types).
  { intros types x. unfold has_type. rewrite LG. destruct (String.eqb_spec x a) as [->|Na].
    - split; [intros (blk & H & I); injection H as <-; auto|]. intros [(_ & ? & _)|[_ I]]; [congruence|]. eexists; split; [reflexivity|exact I].
    - destruct (String.eqb_spec x b) as [->|Nb].
      + split; [intros (blk & H & _); discriminate|]. intros [(_ & _ & ?)|[? _]]; congruence.
      + split.
        * intros (blk & H & I). left. split; [|auto]. destruct (lookup x (cl_blocks g)) as [bx|]; [|discriminate]. injection H as <-. eauto.
        * intros [[(blk & H & I) _]|[? _]]; [|congruence]. rewrite H. eexists; split; [reflexivity|exact I]. }
  constructor.
  - exact K.
  - intros x y. rewrite D. unfold arrivals. rewrite LG. destruct (String.eqb_spec y a) as [->|Ya].
    + replace (count x (cb_comes_from (merged ba bb))) with (departures g x a) by (rewrite <- (c_links g C); unfold arrivals; rewrite LA; reflexivity).
      destruct (String.eqb_spec x a) as [->|]; [rewrite ZA, ZC by auto; reflexivity|]. destruct (String.eqb_spec x b) as [->|]; [exact ZC|reflexivity].
    + destruct (String.eqb_spec y b) as [->|Yb].
      * destruct (String.eqb_spec x a); [auto|]. destruct (String.eqb_spec x b); [auto|]. symmetry; auto.
      * assert (AR : match option_map (relist b a) (lookup y (cl_blocks g)) with Some blk => count x (cb_comes_from blk) | None => 0 end
            = if String.eqb x a then departures g a y + departures g b y else if String.eqb x b then 0 else departures g x y).
        { destruct (lookup y (cl_blocks g)) as [b0|] eqn:LY; simpl.
          - rewrite count_subst by auto. rewrite <- !(c_links g C). unfold arrivals. rewrite LY. reflexivity.
          - rewrite <- !(c_links g C). unfold arrivals. rewrite LY. destruct (x =? a)%string, (x =? b)%string; reflexivity. }
        rewrite AR, (ZA y Yb). reflexivity.
  - intros x blk. rewrite LG. destruct (String.eqb_spec x a) as [->|]; [|destruct (String.eqb_spec x b); [discriminate|]].
    + intros [= <-]. simpl. exact (c_entries g C a ba LA).
    + destruct (lookup x (cl_blocks g)) as [b0|] eqn:LX; [|discriminate]. intros [= <-]. simpl.
      assert (I := c_entries g C x b0 LX). intros z Hz. apply in_map_iff in Hz as (w & <- & Hw). apply in_map. auto.
  - rewrite ST. destruct (c_start g C) as (st & Hs & Is). exists st. split; [exact Hs|]. apply key_lookup in Is as (bs & Is).
    destruct (String.eqb_spec st a) as [->|Na].
    + apply (lookup_In_key _ (merged ba bb)). rewrite LG, String.eqb_refl. reflexivity.
    + apply (lookup_In_key _ (relist b a bs)). rewrite LG, Is. destruct (String.eqb_spec st a); [congruence|]. destruct (String.eqb_spec st b); [congruence|]. reflexivity.
  - intros x. rewrite TE, TY, (c_terminal g C). reflexivity.
  - intros x. rewrite RE, TY, (c_return g C). reflexivity.
Qed.

Lemma subst_id a x : subst a a x = x.
Proof. unfold subst. destruct (String.eqb_spec x a); congruence. Qed.
Lemma option_subst_id a o : option_map (subst a a) o = o.
Proof. destruct o; simpl; [rewrite subst_id|]; reflexivity. Qed.

(** C23: merging a block with its only successor. *)
Theorem merge_blocks_preserves_partial : forall g a b ba bb, consistent g -> mergeable g a b ba bb ->
  exists g' m, merge_blocks a b g = Ok g' /\ consistent g'
  /\ lookup a (cl_blocks g') = Some m /\ lookup b (cl_blocks g') = None
  /\ cb_instrs m = cb_instrs ba ++ cb_instrs bb
  /\ cb_comes_from m = cb_comes_from ba /\ cb_entries m = cb_entries ba
  /\ cb_type m = cb_type bb /\ cb_cond m = cb_cond bb /\ cb_jump_to m = cb_jump_to bb /\ cb_falls_to m = cb_falls_to bb
  /\ (forall x, In x (map fst (cl_blocks g')) <-> In x (map fst (cl_blocks g)) /\ x <> b)
  /\ (forall x bx, lookup x (cl_blocks g) = Some bx -> x <> a -> x <> b ->
        exists bx', lookup x (cl_blocks g') = Some bx' /\ relinked a a b a bx bx')
  /\ cl_start g' = cl_start g.
Proof.
  intros g a b ba bb C M. destruct (merge_lookup g a b ba bb C M) as (g' & E & K & LG & ST & TE & RE).
  assert (C' := merge_consistent g a b ba bb g' C M E). destruct M as [LA LB N SA PB NL ND NS].
  exists g', (merged ba bb). split; [exact E|]. split; [exact C'|].
  split. { rewrite LG. eqs; reflexivity. }
  split. { rewrite LG. eqs; reflexivity. }
  do 7 (split; [reflexivity|]). split; [|split; [|exact ST]].
  - intros x. split.
    + intros H. apply key_lookup in H as (bx & H). rewrite LG in H. destruct (String.eqb_spec x a) as [->|]; [split; [eapply lookup_In_key; eauto|auto]|].
      destruct (String.eqb_spec x b); [discriminate|]. split; [|auto]. destruct (lookup x (cl_blocks g)) eqn:LX; [|discriminate]. eapply lookup_In_key; eauto.
    + intros [H Nb]. destruct (key_lookup x _ H) as (bx & HX). destruct (String.eqb_spec x a) as [->|Na].
      * apply (lookup_In_key _ (merged ba bb)). rewrite LG. eqs; reflexivity.
      * apply (lookup_In_key _ (relist b a bx)). rewrite LG, HX. eqs; reflexivity.
  - intros x bx H Na Nb. exists (relist b a bx). split; [rewrite LG, H; eqs; reflexivity|].
    unfold relinked. rewrite !option_subst_id. repeat split.
Qed.

(** The walks of the old graph are those of the new one, with both blocks in the
    place of the merged one. *)
Definition unmerge (a b : string) (p : list string) : list string :=
  flat_map (fun x => if String.eqb x a then [a; b] else [x]) p.

Theorem merge_blocks_walks : forall g a b ba bb g', consistent g -> mergeable g a b ba bb -> cb_cond ba = None -> merge_blocks a b g = Ok g' ->
  (forall p, walk g' p -> walk g (unmerge a b p) /\ trace g (unmerge a b p) = trace g' p)
  /\ (forall q, walk g q -> hd_error q <> Some b -> (forall q', q <> q' ++ [a]) ->
        exists p, walk g' p /\ q = unmerge a b p).
Proof.
  intros g a b ba bb g' C M CA E. assert (D := fun x y => merge_departures g a b ba bb g' x y C M E). assert (Z := merge_no_self g a b ba bb C M).
  destruct (merge_lookup g a b ba bb C M) as (g'' & E' & K & LG & ST & TE & RE). rewrite E in E'. injection E' as <-.
  destruct M as [LA LB N SA PB NL ND NS].
  assert (ZA : forall y, y <> b -> departures g a y = 0) by (intros y Ny; unfold departures; rewrite LA; apply count_zero; rewrite SA; auto).
  assert (ZB : forall x, x <> a -> departures g x b = 0) by (intros x Nx; rewrite <- (c_links g C); unfold arrivals; rewrite LB; apply count_zero; intros I; apply Nx; auto).
  assert (ZC : departures g b a = 0) by (unfold departures; rewrite LB; apply count_zero; auto).
  assert (EAB : edge g a b) by (apply edge_departures; unfold departures; rewrite LA; apply count_In, SA; reflexivity).
  assert (KB : In b (map fst (cl_blocks g))) by (eapply lookup_In_key; eauto).
  assert (KA : In a (map fst (cl_blocks g))) by (eapply lookup_In_key; eauto).
  assert (KK : forall x, In x (map fst (cl_blocks g')) <-> In x (map fst (cl_blocks g)) /\ x <> b).
  { destruct (merge_blocks_preserves_partial g a b ba bb C) as (g1 & m & E1 & _ & _ & _ & _ & _ & _ & _ & _ & _ & _ & KK & _); [constructor; auto|].
    rewrite E in E1. injection E1 as <-. exact KK. }
  split.
  - intros p W. split.
    + induction p as [|x p IH]; [exact W|]. destruct p as [|y p].
      * simpl in *. apply KK in W as [W Nb]. destruct (String.eqb_spec x a) as [->|]; simpl; [split; auto|]. exact W.
      * destruct W as [EG W]. specialize (IH W). assert (Yb : y <> b).
        { intros ->. assert (Q : In b (map fst (cl_blocks g'))) by (eapply walk_blocks; [exact W|simpl; auto]). apply KK in Q. tauto. }
        apply edge_departures in EG. rewrite D in EG.
        change (unmerge a b (x :: y :: p)) with ((if String.eqb x a then [a; b] else [x]) ++ unmerge a b (y :: p)).
        assert (HY : exists r, unmerge a b (y :: p) = y :: r).
        { simpl. destruct (String.eqb_spec y a); subst; simpl; eauto. }
        destruct HY as (r & HY). rewrite HY in *.
        destruct (String.eqb_spec x a) as [->|Xa]; cbn [app walk].
        -- split; [exact EAB|]. split; [apply edge_departures; exact EG|exact IH].
        -- destruct (String.eqb_spec x b); [lia|]. split; [apply edge_departures; exact EG|exact IH].
    + assert (AO : forall x, x <> a -> In x (map fst (cl_blocks g')) -> actions g' x = actions g x).
      { intros x Na I. apply KK in I as [I Nb]. destruct (key_lookup x _ I) as (bx & HX). unfold actions. rewrite LG, HX. eqs; reflexivity. }
      assert (AI : actions g a ++ actions g b = actions g' a).
      { unfold actions. rewrite LA, LB, LG, String.eqb_refl. simpl. rewrite map_app. reflexivity. }
      assert (BF : forall y, branch g a y = []) by (intros y; unfold branch; rewrite LA, CA; reflexivity).
      assert (BR : forall x y, In x (map fst (cl_blocks g')) -> branch g (if String.eqb x a then b else x) y = branch g' x y).
      { intros x y I. apply KK in I as [I Nb]. unfold branch. rewrite LG. destruct (String.eqb_spec x a) as [->|Na].
        - rewrite LB. reflexivity.
        - destruct (key_lookup x _ I) as (bx & HX). rewrite HX. eqs; reflexivity. }
      induction p as [|x p IH]; [reflexivity|]. destruct p as [|y p].
      * simpl. simpl in W. destruct (String.eqb_spec x a) as [->|Nx]; simpl; rewrite ?app_nil_r; [|symmetry; apply AO; auto]. rewrite BF. simpl. exact AI.
      * destruct W as [EG W]. specialize (IH W). assert (In x (map fst (cl_blocks g'))) as KX by (eapply edge_source; eauto). assert (B := BR x y KX).
        change (unmerge a b (x :: y :: p)) with ((if String.eqb x a then [a; b] else [x]) ++ unmerge a b (y :: p)).
        assert (HY : exists r, unmerge a b (y :: p) = y :: r).
        { simpl. destruct (String.eqb_spec y a); subst; simpl; eauto. }
        destruct HY as (r & HY).
        change (trace g' (x :: y :: p)) with (actions g' x ++ branch g' x y ++ trace g' (y :: p)). rewrite <- IH, <- B.
        destruct (String.eqb_spec x a) as [->|Nx]; rewrite HY; cbn [app trace].
        -- rewrite BF. cbn [app]. rewrite <- AI, <- app_assoc. reflexivity.
        -- rewrite (AO x Nx KX). reflexivity.
  - assert (G : forall n q, length q <= n -> walk g q -> hd_error q <> Some b -> (forall q', q <> q' ++ [a]) ->
      exists p, walk g' p /\ q = unmerge a b p /\ hd_error q = hd_error p).
    { induction n as [|n IH]; intros q Hn W H1 H2; [destruct q; [contradiction|simpl in Hn; lia]|].
      destruct q as [|x q]; [contradiction|]. assert (Xb : x <> b) by (intros ->; apply H1; reflexivity).
      destruct (String.eqb_spec x a) as [->|Xa].
      - destruct q as [|y q]; [exfalso; apply (H2 []); reflexivity|]. destruct W as [EG W]. apply edge_departures in EG.
        assert (y = b) as -> by (destruct (String.eqb_spec y b) as [|Ny]; [auto|rewrite (ZA y Ny) in EG; lia]). clear EG.
        destruct q as [|z q].
        + exists [a]. simpl. rewrite String.eqb_refl. split; [apply KK; auto|]. split; reflexivity.
        + destruct W as [EG W]. apply edge_departures in EG.
          destruct (IH (z :: q)) as (p & Wp & Ep & Hp).
          * simpl in *. lia.
          * exact W.
          * intros [= ->]. lia.
          * intros q' Q. apply (H2 (a :: b :: q')). rewrite Q. reflexivity.
          * destruct p as [|x0 p0]; [contradiction|]. simpl in Hp. injection Hp as ->.
            exists (a :: x0 :: p0). split; [split; [|exact Wp]|].
            -- apply edge_departures. rewrite D, String.eqb_refl. exact EG.
            -- rewrite Ep. simpl. rewrite String.eqb_refl. split; reflexivity.
      - assert (Xk : In x (map fst (cl_blocks g))) by (eapply walk_blocks; eauto; simpl; auto).
        destruct q as [|y q].
        + exists [x]. simpl. destruct (String.eqb_spec x a); [congruence|]. split; [apply KK; auto|]. auto.
        + destruct W as [EG W]. assert (EG' := EG). apply edge_departures in EG.
          assert (Ys : y <> b). { intros ->. rewrite ZB in EG by auto. lia. }
          destruct (IH (y :: q)) as (p & Wp & Ep & Hp).
          * simpl in *. lia.
          * exact W.
          * intros [=]; congruence.
          * intros q' Q. apply (H2 (x :: q')). rewrite Q. reflexivity.
          * destruct p as [|x0 p0]; [contradiction|]. simpl in Hp. injection Hp as ->.
            exists (x :: x0 :: p0). split; [split; [|exact Wp]|].
            -- apply edge_departures. rewrite D. eqs; exact EG.
            -- rewrite Ep. simpl. destruct (String.eqb_spec x a); [congruence|]. auto. }
    intros q W H1 H2. destruct (G (length q) q (le_n _) W H1 H2) as (p & Wp & Ep & _). eauto.
Qed.
