(** C31: dependency levels. *)
From Coq Require Import Relations ListDec.
From Verif Require Import Base Lexical DepsModel SpecModel UtilModel UtilProps.
Open Scope string_scope. Open Scope list_scope.

(** A relation in which every element of a finite non-empty set has a
    successor in the set has a cycle. *)
Lemma finite_cycle (R : string -> string -> Prop) (l : list string) x0 : In x0 l ->
  (forall x, In x l -> exists y, In y l /\ R y x) -> exists x, clos_trans string R x x.
Proof.
  intros H0 H.
  (* chains x0 <- x1 <- ... of any length, newest first *)
  assert (C : forall n, exists c, length c = S n /\ incl c l /\
     (exists x c', c = x :: c' /\ forall pre y mid z post, x :: c' = pre ++ y :: mid ++ z :: post -> clos_trans string R y z)).
  { induction n as [|n (c & Lc & Ic & x & c' & -> & P)].
    - exists [x0]. split; [reflexivity|]. split; [intros y [<-|[]]; exact H0|]. exists x0, []. split; [reflexivity|].
      intros pre y mid z post E. assert (L := f_equal (@length _) E). rewrite !app_length in L. simpl in L.
      rewrite app_length in L. simpl in L. lia.
    - destruct (H x (Ic x (or_introl eq_refl))) as (y & Iy & Ryx). exists (y :: x :: c').
      split; [simpl in *; lia|]. split; [intros z [<-|Q]; auto|]. exists y, (x :: c'). split; [reflexivity|].
      intros pre a mid z post E. destruct pre as [|b pre]; simpl in E; injection E as E1 E2.
      + subst a. destruct mid as [|m mid]; simpl in E2; injection E2 as E2 E3.
        * subst z. apply t_step. exact Ryx.
        * subst m. apply t_trans with x; [apply t_step; exact Ryx|]. apply (P [] x mid z post). rewrite E3. reflexivity.
      + apply (P pre a mid z post E2). }
  destruct (C (length l)) as (c & Lc & Ic & x & c' & -> & P).
  destruct (NoDup_dec string_dec (x :: c')) as [N|N].
  { pose proof (NoDup_incl_length N Ic). lia. }
  assert (D : exists pre y mid post, x :: c' = pre ++ y :: mid ++ y :: post).
  { revert N. generalize (x :: c'). clear. intros l. induction l as [|a l IH]; intros N; [exfalso; apply N; constructor|].
    destruct (in_dec string_dec a l) as [I|I].
    - apply in_split in I as (m & p & ->). exists [], a, m, p. reflexivity.
    - destruct IH as (pre & y & mid & post & ->); [intros Q; apply N; constructor; auto|].
      exists (a :: pre), y, mid, post. reflexivity. }
  destruct D as (pre & y & mid & post & E). exists y. eapply P. exact E.
Qed.

Definition dep (deps : list (string * string)) : string -> string -> Prop := fun a b => In (a, b) deps.
Definition endpoint (deps : list (string * string)) (k : string) : Prop := exists a b, In (a, b) deps /\ (k = a \/ k = b).
Definition acyclic (deps : list (string * string)) : Prop := forall x, ~ clos_trans string (dep deps) x x.

(* --- the dictionary built from the dependencies --- *)
Lemma dict_set_keys {A} k (v : A) d : In k (map fst d) -> map fst (dict_set k v d) = map fst d.
Proof.
  induction d as [|[k' v'] d IH]; simpl; [tauto|]. destruct (String.eqb_spec k' k) as [->|N]; simpl; [reflexivity|].
  intros [Q|Q]; [contradiction|]. rewrite IH; auto.
Qed.
Lemma dict_set_In {A} k (v : A) d k' v' : NoDup (map fst d) -> In k (map fst d) ->
  In (k', v') (dict_set k v d) <-> (k' = k /\ v' = v) \/ (k' <> k /\ In (k', v') d).
Proof.
  induction d as [|[k0 v0] d IH]; simpl; [tauto|]. intros N. apply NoDup_cons_iff in N as [N1 N2].
  destruct (String.eqb_spec k0 k) as [->|Nk]; simpl.
  - intros _. split.
    + intros [Q|Q]; [injection Q as -> ->; auto|]. right. split; auto. intros ->. apply N1, in_map_iff. exists (k, v'). auto.
    + intros [[-> ->]|[Q [E|E]]]; [auto|injection E as -> ->; contradiction|auto].
  - intros [Q|Q]; [contradiction|]. rewrite IH by auto. split.
    + intros [E|E]; [injection E as -> ->; auto|tauto].
    + intros [E|[E1 [E2|E2]]]; auto.
Qed.
Lemma ensure_key_spec k d : NoDup (map fst d) ->
  NoDup (map fst (ensure_key k d)) /\ (forall j, In j (map fst (ensure_key k d)) <-> j = k \/ In j (map fst d))
  /\ (forall j s, In (j, s) (ensure_key k d) -> In (j, s) d \/ (j = k /\ s = [] /\ ~ In k (map fst d))).
Proof.
  intros N. unfold ensure_key. destruct (lookup k d) as [s|] eqn:L.
  - split; [exact N|]. split; [|auto]. intros j. split; [auto|]. intros [->|Q]; [|exact Q].
    apply lookup_In in L. apply in_map_iff. exists (k, s). auto.
  - apply lookup_None in L. split; [|split].
    + rewrite map_app. simpl. apply NoDup_Add with (a := k) (l := map fst d); [|auto].
      rewrite <- (app_nil_r (map fst d)) at 1. apply Add_app.
    + intros j. rewrite map_app, in_app_iff. simpl. intuition.
    + intros j s Q. apply in_app_iff in Q as [Q|[Q|[]]]; [auto|]. injection Q as <- <-. auto.
Qed.
Lemma set_add_In x s y : In y (set_add x s) <-> y = x \/ In y s.
Proof.
  unfold set_add. destruct (mem x s) eqn:M; [apply mem_In in M; split; [auto|intros [->|?]; auto]|].
  rewrite in_app_iff. simpl. intuition.
Qed.

Record mdeps_ok (deps : list (string * string)) (d : list (string * list string)) : Prop := {
  mo_keys : NoDup (map fst d);
  mo_dom : forall k, In k (map fst d) <-> endpoint deps k;
  mo_set : forall k s, In (k, s) d -> forall x, In x s <-> In (x, k) deps
}.
Lemma add_dep_ok deps d p : mdeps_ok deps d -> mdeps_ok (deps ++ [p]) (add_dep d p).
Proof.
  intros [K D S]. destruct p as [a b]. unfold add_dep. cbn [fst snd].
  destruct (ensure_key_spec a d K) as (K1 & D1 & S1). set (d1 := ensure_key a d) in *.
  destruct (ensure_key_spec b d1 K1) as (K2 & D2 & S2). set (d2 := ensure_key b d1) in *.
  assert (B : In b (map fst d2)) by (apply D2; auto).
  assert (Sd2 : forall k s, In (k, s) d2 -> forall x, In x s <-> In (x, k) deps).
  { intros k s Q. apply S2 in Q as [Q|(-> & -> & Nb)].
    - apply S1 in Q as [Q|(-> & -> & Na)]; [apply (S _ _ Q)|]. intros x. split; [intros []|]. intros E. exfalso. apply Na, D. unfold endpoint. eauto.
    - intros x. split; [intros []|]. intros E. exfalso. apply Nb, D1. right. apply D. unfold endpoint. eauto. }
  constructor.
  - rewrite dict_set_keys by exact B. exact K2.
  - intros k. rewrite dict_set_keys by exact B. rewrite D2, D1, D. unfold endpoint. split.
    + intros [->|[->|(x & y & I & Q)]]; [exists a, b|exists a, b|exists x, y]; (split; [apply in_app_iff; simpl; auto|auto]).
    + intros (x & y & I & Q). apply in_app_iff in I as [I|[I|[]]]; [eauto 6|]. injection I as -> ->. tauto.
  - intros k s Q x. apply dict_set_In in Q; [|exact K2|exact B]. rewrite in_app_iff. simpl.
    destruct Q as [[-> ->]|[N Q]].
    + rewrite set_add_In. destruct (lookup b d2) as [s|] eqn:L.
      * rewrite (Sd2 b s (lookup_In _ _ _ L) x). split; [intros [->|?]; auto|]. intros [?|[E|[]]]; [auto|]. injection E as <-. auto.
      * apply lookup_None in L. contradiction.
    + rewrite (Sd2 k s Q x). split; [auto|]. intros [?|[E|[]]]; [auto|]. injection E as <- <-. contradiction.
Qed.
Lemma initial_mdeps_ok deps : mdeps_ok deps (initial_mdeps deps).
Proof.
  unfold initial_mdeps. assert (G : forall done d, mdeps_ok done d -> mdeps_ok (done ++ deps) (fold_left add_dep deps d)).
  { induction deps as [|p deps IH]; intros done d H; simpl; [rewrite app_nil_r; exact H|].
    replace (done ++ p :: deps) with ((done ++ [p]) ++ deps) by (rewrite <- app_assoc; reflexivity).
    apply IH, add_dep_ok, H. }
  apply (G []). constructor; [constructor| |intros ? ? []]. intros k. split; [intros []|]. intros (a & b & [] & _).
Qed.

(* --- rounds --- *)
Lemma discard_fold ready : forall s x, In x (fold_left (fun s x => discard x s) ready s) <-> In x s /\ ~ In x ready.
Proof.
  induction ready as [|r ready IH]; intros s x; simpl; [tauto|]. rewrite IH. unfold discard. rewrite filter_In, negb_true_iff.
  rewrite String.eqb_neq. intuition.
Qed.

Record levels_inv (deps : list (string * string)) (mdeps : list (string * list string)) (cmin : nat) (minmap : list (string * nat)) : Prop := {
  li_keys : NoDup (map fst mdeps ++ map fst minmap);
  li_dom : forall k, In k (map fst mdeps) \/ In k (map fst minmap) <-> endpoint deps k;
  li_set : forall k s, In (k, s) mdeps -> forall x, In x s <-> In (x, k) deps /\ ~ In x (map fst minmap);
  li_lt : forall k l, In (k, l) minmap -> l < cmin;
  li_dep : forall k l, In (k, l) minmap -> forall a, In (a, k) deps -> exists la, In (a, la) minmap /\ la < l;
  li_min : forall k l, In (k, l) minmap -> 0 < l -> exists a, In (a, k) deps /\ In (a, l - 1) minmap;
  li_wait : forall k s, In (k, s) mdeps -> 0 < cmin ->
    exists a, In (a, k) deps /\ (~ In a (map fst minmap) \/ In (a, cmin - 1) minmap)
}.

Lemma is_nil_true {A} (l : list A) : is_nil l = true <-> l = [].
Proof. destruct l; simpl; split; congruence. Qed.

Lemma round_inv deps mdeps cmin minmap ready mdeps' : levels_inv deps mdeps cmin minmap ->
  level_round mdeps = (ready, mdeps') ->
  levels_inv deps mdeps' (S cmin) (minmap ++ map (fun e => (e, cmin)) ready)
  /\ length mdeps' + length ready = length mdeps.
Proof.
  intros [K D Sx Lt Dp Mn Wt] H. unfold level_round in H. injection H as Hr Hm.
  assert (R : forall k, In k ready <-> In (k, []) mdeps).
  { intros k. rewrite <- Hr, in_map_iff. split.
    - intros ([k' s] & <- & Q). apply filter_In in Q as [Q1 Q2]. apply is_nil_true in Q2. simpl in *. subst. exact Q1.
    - intros Q. exists (k, []). split; [reflexivity|]. apply filter_In. split; [exact Q|reflexivity]. }
  assert (M : forall k s', In (k, s') mdeps' <-> exists s, In (k, s) mdeps /\ s <> [] /\ s' = fold_left (fun s x => discard x s) ready s).
  { intros k s'. rewrite <- Hm, in_map_iff. split.
    - intros ([k' s] & Q & I). simpl in Q. injection Q as <- <-. apply filter_In in I as [I1 I2]. apply negb_true_iff in I2.
      exists s. split; [exact I1|]. split; [intros ->; discriminate|]. rewrite Hr. reflexivity.
    - intros (s & I & N & ->). exists (k, s). split; [simpl; now rewrite Hr|]. apply filter_In. split; [exact I|].
      apply negb_true_iff. destruct s; [contradiction|reflexivity]. }
  assert (P : forall k, In k (map fst mdeps) <-> In k (map fst mdeps') \/ In k ready).
  { intros k. rewrite in_map_iff. split.
    - intros ([k' s] & <- & I). destruct s as [|x s]; [right; apply R; exact I|]. left. apply in_map_iff.
      exists (k', fold_left (fun s x => discard x s) ready (x :: s)). split; [reflexivity|]. apply M. exists (x :: s). split; [exact I|]. split; [discriminate|reflexivity].
    - intros [I|I].
      + apply in_map_iff in I as ([k' s'] & <- & I). apply M in I as (s & I & _). exists (k', s). auto.
      + apply R in I. exists (k, []). auto. }
  assert (LenP : length mdeps' + length ready = length mdeps).
  { rewrite <- Hr, <- Hm, !map_length. clear. induction mdeps as [|[k s] m IH]; simpl; auto. destruct (is_nil s); simpl; lia. }
  assert (Km : NoDup (map fst mdeps)) by (clear - K; induction (map fst mdeps) as [|a l IH]; [constructor|]; simpl in K; apply NoDup_cons_iff in K as [K1 K2]; constructor; [intros Q; apply K1, in_app_iff; auto|auto]).
  assert (Kn : NoDup (map fst minmap)) by (clear - K; induction (map fst mdeps) as [|a l IH]; [exact K|]; simpl in K; apply NoDup_cons_iff in K as [K1 K2]; auto).
  assert (Kd : forall k, In k (map fst mdeps) -> In k (map fst minmap) -> False).
  { clear - K. induction (map fst mdeps) as [|a l IH]; [intros ? []|]. simpl in K. apply NoDup_cons_iff in K as [K1 K2].
    intros k [->|I] J; [apply K1, in_app_iff; auto|eauto]. }
  assert (MF : map fst (minmap ++ map (fun e => (e, cmin)) ready) = map fst minmap ++ ready).
  { rewrite map_app, map_map. simpl. now rewrite map_id. }
  assert (Uk : forall k s1 s2, In (k, s1) mdeps -> In (k, s2) mdeps -> s1 = s2).
  { clear - Km. induction mdeps as [|[k0 s0] m IH]; [intros ? ? ? []|]. simpl in Km. apply NoDup_cons_iff in Km as [K1 K2].
    intros k s1 s2 [E1|I1] [E2|I2]; try congruence.
    - injection E1 as -> ->. exfalso. apply K1, in_map_iff. exists (k, s2). auto.
    - injection E2 as -> ->. exfalso. apply K1, in_map_iff. exists (k, s1). auto.
    - eauto. }
  assert (Kr : NoDup ready /\ NoDup (map fst mdeps') /\ forall k, In k ready -> In k (map fst mdeps') -> False).
  { assert (Q : forall (f : string * list string -> bool), NoDup (map fst (filter f mdeps))).
    { intros f. clear - Km. induction mdeps as [|[k s] m IH]; simpl; [constructor|]. simpl in Km. apply NoDup_cons_iff in Km as [K1 K2].
      destruct (f (k, s)); simpl; auto. constructor; auto. intros Q. apply K1. apply in_map_iff in Q as (x & E & I).
      apply filter_In in I as [I _]. apply in_map_iff. eauto. }
    split; [rewrite <- Hr; apply Q|]. split; [rewrite <- Hm, map_map; simpl; apply Q|].
    intros k I J. apply R in I. apply in_map_iff in J as ([k' s'] & <- & J). apply M in J as (s & J & N & _). simpl in I.
    apply N. apply (Uk k'); assumption. }
  destruct Kr as (Kr1 & Kr2 & Kr3).
  split; [|exact LenP]. constructor.
  - rewrite MF, app_assoc.
    assert (ND : forall l1 l2 : list string, NoDup l1 -> NoDup l2 -> (forall k, In k l1 -> In k l2 -> False) -> NoDup (l1 ++ l2)).
    { clear. induction l1 as [|a l1 IH]; intros l2 N1 N2 N; simpl; [exact N2|]. apply NoDup_cons_iff in N1 as [N1 N1'].
      constructor; [|apply IH; auto; intros; eapply N; [right|]; eassumption].
      intros Q. apply in_app_iff in Q as [Q|Q]; [contradiction|]. eapply N; [left; reflexivity|exact Q]. }
    apply ND; [apply ND; auto| exact Kr1|].
    + intros k I J. apply (Kd k); [apply P; auto|exact J].
    + intros k I J. apply in_app_iff in I as [I|I]; [eauto|]. apply (Kd k); [apply P; auto|exact I].
  - intros k. rewrite MF, in_app_iff, <- D, P. tauto.
  - intros k s' I x. apply M in I as (s & I & N & ->). rewrite discard_fold, (Sx k s I x), MF, in_app_iff. tauto.
  - intros k l I. apply in_app_iff in I as [I|I]; [specialize (Lt _ _ I); lia|].
    apply in_map_iff in I as (e & E & _). injection E as <- <-. lia.
  - intros k l I a A. apply in_app_iff in I as [I|I].
    + destruct (Dp k l I a A) as (la & I' & L). exists la. split; [apply in_app_iff; auto|exact L].
    + apply in_map_iff in I as (e & E & I). injection E as <- <-. apply R in I.
      destruct (in_dec string_dec a (map fst minmap)) as [J|J].
      * apply in_map_iff in J as ([a' la] & <- & J). exists la. split; [apply in_app_iff; auto|]. eapply Lt; eauto.
      * exfalso. apply (Sx e [] I a). auto.
  - intros k l I L. apply in_app_iff in I as [I|I].
    + destruct (Mn k l I L) as (a & A & B). exists a. split; [exact A|apply in_app_iff; auto].
    + apply in_map_iff in I as (e & E & I). injection E as <- <-. apply R in I.
      destruct (Wt e [] I L) as (a & A & B). exists a. split; [exact A|]. apply in_app_iff. left.
      destruct B as [B|B]; [|exact B]. exfalso. apply (Sx e [] I a). auto.
  - intros k s' I _. apply M in I as (s & I & N & ->). destruct s as [|x s]; [contradiction|].
    destruct (proj1 (Sx k (x :: s) I x) (or_introl eq_refl)) as [A B]. exists x. split; [exact A|].
    rewrite MF, in_app_iff. simpl. rewrite Nat.sub_0_r.
    destruct (in_dec string_dec x ready) as [J|J]; [right|left; tauto].
    apply in_app_iff. right. apply in_map_iff. eauto.
Qed.

Lemma levels_loop_inv deps fuel : forall mdeps cmin minmap m, levels_inv deps mdeps cmin minmap ->
  levels_loop fuel mdeps cmin minmap = Ok m -> exists c, levels_inv deps [] c m.
Proof.
  induction fuel as [|fuel IH]; intros mdeps cmin minmap m I H; destruct mdeps as [|kv mdeps]; cbn [levels_loop] in H; try discriminate.
  - injection H as <-. eauto.
  - injection H as <-. eauto.
  - destruct (level_round (kv :: mdeps)) as [ready mdeps'] eqn:E. destruct (round_inv _ _ _ _ _ _ I E) as [I' _]. eauto.
Qed.
Lemma initial_inv deps : levels_inv deps (initial_mdeps deps) 0 [].
Proof.
  destruct (initial_mdeps_ok deps) as [K D Sx]. constructor; simpl; try (intros ? ? []; fail).
  - rewrite app_nil_r. exact K.
  - intros k. rewrite <- D. tauto.
  - intros k s I x. rewrite (Sx k s I x). tauto.
  - intros; lia.
Qed.
Lemma levels_loop_total deps : acyclic deps -> forall fuel mdeps cmin minmap, levels_inv deps mdeps cmin minmap ->
  length mdeps <= fuel -> exists m, levels_loop fuel mdeps cmin minmap = Ok m.
Proof.
  intros A. induction fuel as [|fuel IH]; intros mdeps cmin minmap I L; destruct mdeps as [|kv mdeps]; cbn [levels_loop]; try (simpl in L; lia); eauto.
  destruct (level_round (kv :: mdeps)) as [ready mdeps'] eqn:E. destruct (round_inv _ _ _ _ _ _ I E) as [I' Len].
  apply IH; [exact I'|]. assert (ready <> []); [|destruct ready; [contradiction|simpl in *; lia]].
  intros ->. set (md := kv :: mdeps) in *.
  destruct (finite_cycle (dep deps) (map fst md) (fst kv)) as (x & Cx); [left; reflexivity| |exact (A x Cx)].
  intros k Hk. apply in_map_iff in Hk as ([k' s] & <- & Hk). destruct s as [|x s].
  - exfalso. assert (E' := f_equal fst E). unfold level_round in E'. cbn [fst] in E'.
    assert (Q : In k' []); [|destruct Q]. rewrite <- E'. apply in_map_iff. exists (k', []). split; [reflexivity|]. apply filter_In. split; [exact Hk|reflexivity].
  - destruct (proj1 (li_set _ _ _ _ I k' (x :: s) Hk x) (or_introl eq_refl)) as [B1 B2]. exists x. split; [|exact B1].
    destruct (proj2 (li_dom _ _ _ _ I x)) as [Q|Q]; [unfold endpoint; eauto|exact Q|contradiction].
Qed.

(** What the levels are, independently of the algorithm: defined exactly on the
    instructions that occur in a dependency; an instruction is one level above
    the highest of those it depends on. *)
Record levels (deps : list (string * string)) (level : string -> option nat) : Prop := {
  lv_dom : forall k, level k <> None <-> endpoint deps k;
  lv_above : forall a b la lb, In (a, b) deps -> level a = Some la -> level b = Some lb -> la < lb;
  lv_tight : forall b lb, level b = Some (S lb) -> exists a, In (a, b) deps /\ level a = Some lb
}.
Lemma lookup_NoDup {A} k (v : A) d : NoDup (map fst d) -> In (k, v) d -> lookup k d = Some v.
Proof.
  induction d as [|[k' v'] d IH]; simpl; [tauto|]. intros N. apply NoDup_cons_iff in N as [N1 N2].
  intros [E|I]; [injection E as -> ->; now rewrite String.eqb_refl|].
  destruct (String.eqb_spec k' k) as [->|]; [|auto]. exfalso. apply N1, in_map_iff. exists (k, v). auto.
Qed.
Lemma inv_levels deps c m : levels_inv deps [] c m -> levels deps (fun k => lookup k m).
Proof.
  intros [K D _ _ Dp Mn _]. simpl in K. constructor.
  - intros k. rewrite <- D. simpl. split.
    + intros Q. right. destruct (lookup k m) as [v|] eqn:L; [|contradiction]. apply lookup_In in L. apply in_map_iff. exists (k, v). auto.
    + intros [[]|Q] L. apply lookup_None in L. contradiction.
  - intros a b la lb I La Lb. apply lookup_In in Lb. destruct (Dp b lb Lb a I) as (la' & I' & L).
    rewrite (lookup_NoDup _ _ _ K I') in La. injection La as <-. exact L.
  - intros b lb Lb. apply lookup_In in Lb. destruct (Mn b (S lb) Lb) as (a & A & B); [lia|]. exists a. split; [exact A|].
    apply lookup_NoDup; [exact K|]. simpl in B. rewrite Nat.sub_0_r in B. exact B.
Qed.

Theorem dependency_levels_correct : forall deps, acyclic deps ->
  exists m, get_min_deps_map deps = Ok m /\ NoDup (map fst m) /\ levels deps (fun k => lookup k m).
Proof.
  intros deps A. destruct (levels_loop_total deps A (length (initial_mdeps deps)) _ _ _ (initial_inv deps) (le_n _)) as (m & E).
  exists m. split; [exact E|]. destruct (levels_loop_inv _ _ _ _ _ _ (initial_inv deps) E) as (c & I).
  split; [apply (li_keys _ _ _ _ I)|]. eapply inv_levels. exact I.
Qed.

(** With a cycle the computation never ends. *)
Theorem dependency_levels_diverge_refuted : forall deps, ~ acyclic deps ->
  forall fuel, get_min_deps_map_fuel fuel deps = Raise OutOfFuel.
Proof.
  intros deps N fuel. unfold get_min_deps_map_fuel.
  assert (O : forall fuel mdeps c m, levels_loop fuel mdeps c m = Raise OutOfFuel \/ exists r, levels_loop fuel mdeps c m = Ok r).
  { clear. induction fuel as [|fuel IH]; intros mdeps c m; destruct mdeps; cbn [levels_loop]; eauto. destruct (level_round _). apply IH. }
  destruct (O fuel (initial_mdeps deps) 0 []) as [E|(m & E)]; [exact E|]. exfalso. apply N.
  destruct (levels_loop_inv _ _ _ _ _ _ (initial_inv deps) E) as (c & I). pose proof (inv_levels _ _ _ I) as [Dm Ab _].
  assert (G : forall x y, clos_trans string (dep deps) x y -> exists lx ly, lookup x m = Some lx /\ lookup y m = Some ly /\ lx < ly).
  { intros x y C. induction C as [x y C|x y z C1 (l1 & l2 & A1 & A2 & A3) C2 (l3 & l4 & B1 & B2 & B3)].
    - unfold dep in C. assert (X : lookup x m <> None) by (apply Dm; unfold endpoint; eauto).
      assert (Y : lookup y m <> None) by (apply Dm; unfold endpoint; eauto).
      destruct (lookup x m) as [lx|] eqn:Ex; [|contradiction]. destruct (lookup y m) as [ly|] eqn:Ey; [|contradiction].
      exists lx, ly. repeat split; auto. eapply Ab; eauto.
    - exists l1, l4. repeat split; auto. rewrite A2 in B1. injection B1 as ->. lia. }
  intros x Cx. destruct (G x x Cx) as (l & l' & E1 & E2 & E3). rewrite E1 in E2. injection E2 as ->. lia.
Qed.

(** The recursive definition the code mentions in a comment gives the same
    levels (0 for instructions without dependencies). *)
Definition level_of (m : list (string * nat)) (o : string) : nat := match lookup o m with Some l => l | None => 0 end.
Theorem dependency_levels_recursive : forall deps m, acyclic deps -> get_min_deps_map deps = Ok m ->
  forall fuel o, level_of m o < fuel -> get_min_pos fuel o deps = Ok (level_of m o).
Proof.
  intros deps m A E. destruct (dependency_levels_correct deps A) as (m' & E' & ND & [Dm Ab Ti]). rewrite E in E'. injection E' as <-.
  assert (Ed : forall a b, In (a, b) deps -> level_of m a < level_of m b).
  { intros a b I. unfold level_of. assert (X : lookup a m <> None) by (apply Dm; unfold endpoint; eauto).
    assert (Y : lookup b m <> None) by (apply Dm; unfold endpoint; eauto).
    destruct (lookup a m) eqn:Ea; [|contradiction]. destruct (lookup b m) eqn:Eb; [|contradiction]. eapply Ab; eauto. }
  assert (Tg : forall b, 0 < level_of m b -> exists a, In (a, b) deps /\ level_of m a + 1 = level_of m b).
  { intros b L. unfold level_of in *. destruct (lookup b m) as [[|l]|] eqn:Eb; try lia.
    destruct (Ti b l Eb) as (a & I & Ea). exists a. split; [exact I|]. rewrite Ea. lia. }
  induction fuel as [|fuel IH]; intros o L; [lia|]. cbn [get_min_pos].
  set (step := fun (m : nat) (p : string * string) => if snd p =? o then do n <- get_min_pos fuel (fst p) deps; Ok (Nat.max m (n + 1)) else Ok m).
  assert (G : forall ds k, incl ds deps -> k <= level_of m o ->
     exists r, for_each step ds k = Ok r /\ k <= r <= level_of m o /\ forall a, In (a, o) ds -> level_of m a + 1 <= r).
  { induction ds as [|[a b] ds IHd]; intros k I Lk; cbn [for_each].
    - exists k. split; [reflexivity|]. split; [lia|intros ? []].
    - assert (S1 : exists k', step k (a, b) = Ok k' /\ k <= k' <= level_of m o /\ (b = o -> level_of m a + 1 <= k')).
      { unfold step. cbn [fst snd]. destruct (String.eqb_spec b o) as [->|N].
        - pose proof (Ed a o (I _ (or_introl eq_refl))) as La. rewrite IH by lia. cbn [bind]. eexists. split; [reflexivity|]. lia.
        - exists k. split; [reflexivity|]. split; [lia|]. intros ->. contradiction. }
      destruct S1 as (k' & -> & Hk & Hb). cbn [bind]. destruct (IHd k') as (r & Er & Hr & Ha); [intros x Hx; apply I; right; exact Hx|lia|].
      exists r. split; [exact Er|]. split; [lia|]. intros a' [Q|Q]; [injection Q as -> ->; specialize (Hb eq_refl); lia|auto]. }
  destruct (G deps 0 (incl_refl _)) as (r & Er & Hr & Ha); [lia|]. rewrite Er. f_equal.
  destruct (Nat.eq_dec (level_of m o) 0) as [Z|Z]; [lia|]. destruct (Tg o) as (a & I & Ea); [lia|]. specialize (Ha a I). lia.
Qed.

Example dependency_levels_example :
  get_min_deps_map [("a", "b"); ("b", "d"); ("a", "d"); ("c", "d")] = Ok [("a", 0); ("c", 0); ("b", 1); ("d", 2)]
  /\ acyclic [("a", "b"); ("b", "d"); ("a", "d"); ("c", "d")] /\ ~ acyclic [("a", "b"); ("b", "a")].
Proof.
  split; [vm_compute; reflexivity|]. split.
  - set (rk := fun x => if x =? "a" then 0 else if x =? "b" then 1 else if x =? "c" then 0 else 2).
    assert (G : forall x y, clos_trans string (dep [("a", "b"); ("b", "d"); ("a", "d"); ("c", "d")]) x y -> rk x < rk y).
    { intros x y C. induction C as [x y C|]; [|lia]. unfold dep in C. simpl in C. decompose [or] C; try contradiction;
        match goal with Q : (_, _) = (_, _) |- _ => injection Q as <- <- end; vm_compute; lia. }
    intros x C. apply G in C. lia.
  - intros A. apply (A "a"). apply t_trans with "b"; apply t_step; unfold dep; simpl; auto.
Qed.
Print Assumptions dependency_levels_correct.
Print Assumptions dependency_levels_diverge_refuted.
Print Assumptions dependency_levels_recursive.
