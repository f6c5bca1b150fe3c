(** C17: the classes are the connected components of the phi relation. *)
From Coq Require Import Relations.
From Verif Require Import Base UtilModel UtilProps WebModel.
Open Scope string_scope. Open Scope list_scope.

(* --- roots in a parent array --- *)
Inductive rooted (p : list nat) : nat -> nat -> Prop :=
| rt_root r : nth_error p r = Some r -> rooted p r r
| rt_up i q r : nth_error p i = Some q -> q <> i -> rooted p q r -> rooted p i r.

Lemma rooted_root p i r : rooted p i r -> nth_error p r = Some r.
Proof. induction 1; auto. Qed.
Lemma rooted_fun p i r r' : rooted p i r -> rooted p i r' -> r = r'.
Proof.
  intros H. revert r'. induction H as [r H|i q r H N R IH]; intros r' H'.
  - inversion H'; subst; auto. congruence.
  - inversion H'; subst; [congruence|]. assert (q0 = q) by congruence. subst. auto.
Qed.

Lemma nth_set_nth_same {A} (l : list A) i v : i < length l -> nth_error (set_nth i v l) i = Some v.
Proof. revert i; induction l as [|x l IH]; intros [|i] H; simpl in *; try lia; auto. apply IH. lia. Qed.
Lemma nth_set_nth_other {A} (l : list A) i j v : i <> j -> nth_error (set_nth i v l) j = nth_error l j.
Proof. revert i j; induction l as [|x l IH]; intros [|i] [|j] H; simpl in *; try lia; auto. Qed.

(** Parents have higher rank. *)
Record ranked (p : list nat) (f : nat -> nat) (bound : nat) : Prop := {
  rk_in : forall i q, nth_error p i = Some q -> q < length p;
  rk_up : forall i q, nth_error p i = Some q -> q <> i -> f i < f q;
  rk_bound : forall i, i < length p -> f i <= bound
}.
Lemma ranked_rooted p f b i : ranked p f b -> i < length p -> exists r, rooted p i r.
Proof.
  intros [I U B]. remember (b - f i) as k eqn:K. revert i K. induction k as [k IH] using lt_wf_ind. intros i K L.
  destruct (nth_error p i) as [q|] eqn:E; [|apply nth_error_None in E; lia].
  destruct (Nat.eq_dec q i) as [->|N]; [exists i; now constructor|].
  pose proof (I _ _ E). pose proof (U _ _ E N). pose proof (B _ H).
  destruct (IH (b - f q)) with (i := q) as (r & R); try lia. exists r. econstructor; eauto.
Qed.
Lemma rooted_rank p f b i r : ranked p f b -> rooted p i r -> i = r \/ f i < f r.
Proof. intros R H. induction H as [|i q r H N _ IH]; auto. right. pose proof (rk_up _ _ _ R _ _ H N). destruct IH as [->|IH]; lia. Qed.

(** Redirecting an element to its own root changes no root. *)
Lemma compress_rooted p f b i r : ranked p f b -> rooted p i r -> i <> r ->
  forall j s, rooted (set_nth i r p) j s <-> rooted p j s.
Proof.
  intros R H N. assert (Li : i < length p) by (destruct H as [? E|? ? ? E]; apply nth_error_Some; congruence).
  assert (Hr : nth_error (set_nth i r p) r = Some r) by (rewrite nth_set_nth_other by auto; eapply rooted_root; eauto).
  intros j s. split; intros Q.
  - induction Q as [s Q|j q s Q Nq Qs IH].
    + destruct (Nat.eq_dec i s) as [<-|Ns]; [|rewrite nth_set_nth_other in Q by auto; now constructor].
      rewrite nth_set_nth_same in Q by auto. congruence.
    + destruct (Nat.eq_dec i j) as [<-|Nj].
      * rewrite nth_set_nth_same in Q by auto. injection Q as <-.
        assert (s = r) by (eapply rooted_fun; [exact Qs|now constructor]). subst. exact H.
      * rewrite nth_set_nth_other in Q by auto. econstructor; eauto.
  - induction Q as [s Q|j q s Q Nq Qs IH].
    + destruct (Nat.eq_dec i s) as [<-|Ns].
      * exfalso. apply N. symmetry. eapply rooted_fun; [exact H|now constructor].
      * constructor. rewrite nth_set_nth_other by auto. exact Q.
    + destruct (Nat.eq_dec i j) as [<-|Nj].
      * assert (s = r) by (eapply rooted_fun; [econstructor; eauto|exact H]). subst s.
        econstructor; [apply nth_set_nth_same; exact Li|auto|]. now constructor.
      * econstructor; [rewrite nth_set_nth_other by auto; exact Q|exact Nq|exact IH].
Qed.

Lemma find_index_spec f b fuel : forall i p, ranked p f b -> i < length p -> b - f i < fuel ->
  exists r p', find_index fuel i p = Ok (r, p') /\ rooted p i r /\ length p' = length p /\ ranked p' f b
    /\ forall j s, rooted p' j s <-> rooted p j s.
Proof.
  induction fuel as [|fuel IH]; intros i p R L Lf; [lia|]. cbn [find_index].
  destruct (nth_error p i) as [q|] eqn:E; [|apply nth_error_None in E; lia]. cbn [of_option bind].
  destruct (Nat.eqb_spec q i) as [->|N].
  - exists i, p. split; [reflexivity|]. split; [now constructor|]. split; [reflexivity|]. split; [exact R|tauto].
  - pose proof (rk_in _ _ _ R _ _ E). pose proof (rk_up _ _ _ R _ _ E N). pose proof (rk_bound _ _ _ R _ H).
    destruct (IH q p R) as (r & p' & E' & Rq & Len & R' & Eq); [lia|lia|]. rewrite E'. cbn [bind].
    assert (Ri : rooted p i r) by (econstructor; eauto).
    assert (Nr : i <> r) by (intros ->; destruct (rooted_rank _ _ _ _ _ R Rq); [congruence|lia]).
    exists r, (set_nth i r p'). split; [reflexivity|]. split; [exact Ri|]. split; [rewrite set_nth_length; exact Len|].
    assert (Ri' : rooted p' i r) by (apply Eq; exact Ri).
    split; [|intros j s; rewrite (compress_rooted _ _ _ _ _ R' Ri' Nr); apply Eq].
    constructor.
    + intros j s Q. rewrite set_nth_length. destruct (Nat.eq_dec i j) as [<-|Nj].
      * rewrite nth_set_nth_same in Q by lia. injection Q as <-. apply rooted_root in Ri'. apply nth_error_Some. congruence.
      * rewrite nth_set_nth_other in Q by auto. eapply rk_in; eauto.
    + intros j s Q Ns. destruct (Nat.eq_dec i j) as [<-|Nj].
      * rewrite nth_set_nth_same in Q by lia. injection Q as <-. destruct (rooted_rank _ _ _ _ _ R Ri); [congruence|lia].
      * rewrite nth_set_nth_other in Q by auto. eapply rk_up; eauto.
    + intros j Lj. rewrite set_nth_length in Lj. eapply rk_bound; eauto.
Qed.

(** Hanging one root below another. *)
Lemma link_rooted p c1 c2 : nth_error p c1 = Some c1 -> nth_error p c2 = Some c2 -> c1 <> c2 ->
  forall j s, rooted (set_nth c1 c2 p) j s <-> (s <> c1 /\ rooted p j s) \/ (s = c2 /\ rooted p j c1).
Proof.
  intros H1 H2 N. assert (L1 : c1 < length p) by (apply nth_error_Some; congruence).
  assert (H2' : nth_error (set_nth c1 c2 p) c2 = Some c2) by (rewrite nth_set_nth_other by auto; exact H2).
  intros j s. split.
  - intros Q. induction Q as [s Q|j q s Q Nq Qs IH].
    + destruct (Nat.eq_dec c1 s) as [<-|Ns]; [rewrite nth_set_nth_same in Q by auto; congruence|].
      rewrite nth_set_nth_other in Q by auto. left. split; [auto|now constructor].
    + destruct (Nat.eq_dec c1 j) as [<-|Nj].
      * rewrite nth_set_nth_same in Q by auto. injection Q as <-. right.
        split; [eapply rooted_fun; [exact Qs|now constructor]|now constructor].
      * rewrite nth_set_nth_other in Q by auto. destruct IH as [[A B]|[A B]]; [left|right]; (split; [auto|econstructor; eauto]).
  - assert (G : forall j s, rooted p j s -> rooted (set_nth c1 c2 p) j (if Nat.eq_dec s c1 then c2 else s)).
    { intros i t Q. induction Q as [t Q|i q t Q Nq Qs IH].
      - destruct (Nat.eq_dec t c1) as [->|Nt]; [|constructor; rewrite nth_set_nth_other by auto; exact Q].
        econstructor; [apply nth_set_nth_same; exact L1|auto|now constructor].
      - destruct (Nat.eq_dec c1 i) as [<-|Ni]; [congruence|].
        econstructor; [rewrite nth_set_nth_other by auto; exact Q|exact Nq|exact IH]. }
    intros [[A B]|[-> B]]; apply G in B; destruct (Nat.eq_dec _ c1); congruence.
Qed.

(* --- the invariant --- *)
Definition phi_edge (phis : list (string * list string)) (a b : string) : Prop :=
  exists vs, In (a, vs) phis /\ In b vs.
Definition connected (phis : list (string * list string)) : string -> string -> Prop := clos_refl_sym_trans string (phi_edge phis).
Definition occurs (phis : list (string * list string)) (x : string) : Prop :=
  exists d vs, In (d, vs) phis /\ (x = d \/ In x vs).

Definition rankf (w : webs) (i : nat) : nat := nth i (w_rank w) 0.
Record wshape (w : webs) : Prop := {
  ws_len : length (w_parent w) = length (w_class w);
  ws_rank : length (w_rank w) = length (w_class w);
  ws_nel : length (w_nelems w) = length (w_class w);
  ws_vals : map snd (w_class w) = seq 0 (length (w_class w));
  ws_keys : NoDup (map fst (w_class w));
  ws_ranked : ranked (w_parent w) (rankf w) (list_max (w_rank w))
}.
(** the class of [x] has root [r] *)
Definition rep (w : webs) (x : string) (r : nat) : Prop := exists i, lookup x (w_class w) = Some i /\ rooted (w_parent w) i r.
Definition classes (w : webs) (E : string -> string -> Prop) : Prop :=
  forall x y r s, rep w x r -> rep w y s -> (r = s <-> clos_refl_sym_trans string E x y).

(** the sizes kept for the classes, and their number *)
Definition sized (w : webs) : Prop :=
  (forall c n, nth_error (w_nelems w) c = Some n -> exists l, NoDup l /\ length l = n /\ forall x, In x l <-> rep w x c)
  /\ w_num w = Z.of_nat (length (filter (fun n => (0 <? n)%nat) (w_nelems w))).

Lemma count_set_nth l : forall i v u, nth_error l i = Some u ->
  length (filter (fun n => (0 <? n)%nat) (set_nth i v l)) + (if (0 <? u)%nat then 1 else 0)
  = length (filter (fun n => (0 <? n)%nat) l) + (if (0 <? v)%nat then 1 else 0).
Proof.
  induction l as [|a l IH]; intros [|i] v u H; cbn in H; try discriminate.
  - injection H as ->. cbn [set_nth filter]. destruct (0 <? u)%nat, (0 <? v)%nat; simpl; lia.
  - cbn [set_nth filter]. specialize (IH i v u H). destruct (0 <? a)%nat; simpl; lia.
Qed.

(** Merging a class into another. *)
Lemma sized_merge w w' from to nf nt : sized w -> from <> to ->
  nth_error (w_nelems w) from = Some nf -> nth_error (w_nelems w) to = Some nt -> 0 < nf -> 0 < nt ->
  w_nelems w' = set_nth from 0 (set_nth to (nt + nf) (w_nelems w)) -> w_num w' = (w_num w - 1)%Z ->
  (forall x r, rep w' x r <-> (r <> from /\ rep w x r) \/ (r = to /\ rep w x from)) ->
  (forall x r s, rep w x r -> rep w x s -> r = s) -> sized w'.
Proof.
  intros [A B] N Hf Ht Pf Pt E En R F.
  assert (Lf : from < length (w_nelems w)) by (apply nth_error_Some; congruence).
  assert (Lt : to < length (w_nelems w)) by (apply nth_error_Some; congruence).
  split.
  - intros c n. rewrite E. destruct (Nat.eq_dec from c) as [<-|Nf].
    + rewrite nth_set_nth_same by (rewrite set_nth_length; exact Lf). intros [= <-]. exists [].
      split; [constructor|]. split; [reflexivity|]. intros x. rewrite R. simpl. split; [tauto|]. intros [[Q _]|[Q _]]; congruence.
    + rewrite nth_set_nth_other by exact Nf. destruct (Nat.eq_dec to c) as [<-|Nt].
      * rewrite nth_set_nth_same by exact Lt. intros [= <-].
        destruct (A _ _ Hf) as (lf & Ff & Gf & If). destruct (A _ _ Ht) as (lt & Ft & Gt & It). exists (lt ++ lf).
        split; [|split].
        -- clear -Ff Ft If It F N. assert (D : forall x, In x lt -> ~ In x lf).
           { intros x Q1 Q2. apply It in Q1. apply If in Q2. apply N. exact (F x _ _ Q2 Q1). }
           clear It If. induction lt as [|a lt IH]; [exact Ff|]. inversion Ft as [|? ? X Y]. subst. simpl. constructor.
           ++ rewrite in_app_iff. intros [Q|Q]; [exact (X Q)|exact (D a (or_introl eq_refl) Q)].
           ++ apply IH; [exact Y|]. intros x Q. apply D. simpl; auto.
        -- rewrite app_length. lia.
        -- intros x. rewrite in_app_iff, R, It, If. split; [intros [Q|Q]; [left; auto|right; auto]|].
           intros [[_ Q]|[_ Q]]; auto.
      * rewrite nth_set_nth_other by exact Nt. intros Q. destruct (A _ _ Q) as (l & L1 & L2 & L3). exists l.
        split; [exact L1|]. split; [exact L2|]. intros x. rewrite R, L3. split; [auto|]. intros [[_ Q']|[Q' _]]; [exact Q'|congruence].
  - rewrite E, En, B.
    pose proof (count_set_nth (w_nelems w) to (nt + nf) nt Ht) as C1.
    assert (Hf' : nth_error (set_nth to (nt + nf) (w_nelems w)) from = Some nf) by (rewrite nth_set_nth_other by congruence; exact Hf).
    pose proof (count_set_nth _ from 0 nf Hf') as C2.
    rewrite (proj2 (Nat.ltb_lt 0 nt)) in C1 by lia. rewrite (proj2 (Nat.ltb_lt 0 (nt + nf))) in C1 by lia.
    rewrite (proj2 (Nat.ltb_lt 0 nf)) in C2 by lia. change (0 <? 0)%nat with false in C2. cbv iota in C2. revert C1 C2. generalize (length (filter (fun n => (0 <? n)%nat) (w_nelems w))), (length (filter (fun n => (0 <? n)%nat) (set_nth to (nt + nf) (w_nelems w)))), (length (filter (fun n => (0 <? n)%nat) (set_nth from 0 (set_nth to (nt + nf) (w_nelems w))))). intros; lia.
Qed.

Lemma list_max_In l x : In x l -> x <= list_max l.
Proof. intros H. assert (A : list_max l <= list_max l) by lia. apply list_max_le in A. rewrite Forall_forall in A. auto. Qed.
Lemma class_lt w x i : wshape w -> lookup x (w_class w) = Some i -> i < length (w_parent w).
Proof.
  intros S H. apply lookup_In in H. assert (Q : In i (map snd (w_class w))) by (apply in_map_iff; exists (x, i); auto).
  rewrite (ws_vals _ S) in Q. apply in_seq in Q. rewrite (ws_len _ S). lia.
Qed.
Lemma rep_ex w x : wshape w -> lookup x (w_class w) <> None -> exists r, rep w x r.
Proof.
  intros S H. destruct (lookup x (w_class w)) as [i|] eqn:L; [|contradiction].
  destruct (ranked_rooted _ _ _ i (ws_ranked _ S)) as (r & R); [eapply class_lt; eauto|]. exists r, i. auto.
Qed.
Lemma rep_fun w x r s : rep w x r -> rep w x s -> r = s.
Proof. intros (i & L & R) (j & L' & R'). assert (i = j) by congruence. subst. eapply rooted_fun; eauto. Qed.

Lemma find_set_spec w x : wshape w -> lookup x (w_class w) <> None ->
  exists r w', find_set w x = Ok (r, w') /\ rep w x r /\ wshape w' /\ w_class w' = w_class w /\ w_rank w' = w_rank w
    /\ w_nelems w' = w_nelems w /\ w_num w' = w_num w /\ (forall j s, rooted (w_parent w') j s <-> rooted (w_parent w) j s).
Proof.
  intros S H. unfold find_set. destruct (lookup x (w_class w)) as [i|] eqn:L; [|contradiction]. cbn [of_option bind].
  destruct (find_index_spec (rankf w) (list_max (w_rank w)) (Datatypes.S (list_max (w_rank w))) i (w_parent w)) as (r & p & E & R & Len & Rk & Eq);
    [apply S|eapply class_lt; eauto|lia|].
  rewrite E. cbn [bind]. exists r, (with_parent w p). split; [reflexivity|]. split; [exists i; auto|].
  split; [|auto 10]. destruct S. constructor; cbn [with_parent w_class w_parent w_rank w_nelems]; auto. lia.
Qed.

Lemma initialize_spec w x E : wshape w -> classes w E -> (forall a b, E a b -> lookup a (w_class w) <> None /\ lookup b (w_class w) <> None) ->
  wshape (initialize_element w x) /\ classes (initialize_element w x) E
  /\ (forall y, lookup y (w_class (initialize_element w x)) <> None <-> y = x \/ lookup y (w_class w) <> None)
  /\ (sized w -> sized (initialize_element w x)).
Proof.
  intros S C D. unfold initialize_element. destruct (lookup x (w_class w)) as [i|] eqn:L.
  { split; [exact S|]. split; [exact C|]. split; [|auto]. intros y. split; [auto|]. intros [->|Q]; [congruence|exact Q]. }
  set (n := length (w_parent w)). cbn [w_class w_parent w_rank w_nelems].
  set (w' := {| w_class := w_class w ++ [(x, n)]; w_parent := w_parent w ++ [n]; w_nelems := w_nelems w ++ [1];
                w_rank := w_rank w ++ [0]; w_num := (w_num w + 1)%Z |}).
  destruct S as [S1 S2 S3 S4 S5 S6].
  assert (Hn : nth_error (w_parent w ++ [n]) n = Some n) by (rewrite nth_error_app2 by (unfold n; lia); unfold n; rewrite Nat.sub_diag; reflexivity).
  assert (Ho : forall i q, nth_error (w_parent w ++ [n]) i = Some q -> nth_error (w_parent w) i = Some q \/ (i = n /\ q = n)).
  { intros i q Q. destruct (Nat.lt_ge_cases i n) as [Q1|Q1]; [rewrite nth_error_app1 in Q by exact Q1; auto|].
    rewrite nth_error_app2 in Q by exact Q1. unfold n in *. destruct (i - length (w_parent w)) as [|k] eqn:K; [|destruct k; discriminate].
    injection Q as <-. right. lia. }
  assert (Rk : forall i, i < n -> rankf w' i = rankf w i).
  { intros i Q. unfold rankf, w'. cbn [w_rank]. apply app_nth1. unfold n in Q. lia. }
  assert (Lm : list_max (w_rank w ++ [0]) = list_max (w_rank w)) by (rewrite list_max_app; simpl; lia).
  assert (Ro : forall i r, i < n -> (rooted (w_parent w ++ [n]) i r <-> rooted (w_parent w) i r)).
  { intros i r Li. split; intros Q.
    - induction Q as [r Q|i q r Q Nq Qr IH].
      + destruct (Ho _ _ Q) as [A|[A _]]; [now constructor|lia].
      + destruct (Ho _ _ Q) as [A|[A _]]; [|lia]. econstructor; [exact A|exact Nq|]. apply IH. exact (rk_in _ _ _ S6 _ _ A).
    - clear Li. induction Q as [r Q|i q r Q Nq Qr IH].
      + constructor. rewrite nth_error_app1; [exact Q|]. apply nth_error_Some. congruence.
      + econstructor; [rewrite nth_error_app1; [exact Q|apply nth_error_Some; congruence]|exact Nq|exact IH]. }
  assert (Lk : forall y, lookup y (w_class w') = if String.eqb x y then Some n else lookup y (w_class w)).
  { intros y. unfold w'. cbn [w_class]. rewrite lookup_app. destruct (String.eqb_spec x y) as [<-|Ny].
    - rewrite L. simpl. now rewrite String.eqb_refl.
    - destruct (lookup y (w_class w)); [reflexivity|]. simpl. destruct (String.eqb_spec x y); [contradiction|reflexivity]. }
  assert (Rp : forall y r, rep w' y r <-> (y = x /\ r = n) \/ rep w y r).
  { intros y r. unfold rep. setoid_rewrite Lk. split.
    - intros (i & Q & R). destruct (String.eqb_spec x y) as [<-|Ny].
      + injection Q as <-. left. split; [reflexivity|]. eapply rooted_fun; [exact R|]. now constructor.
      + right. exists i. split; [exact Q|]. apply Ro in R; [exact R|].
        apply lookup_In in Q. assert (Q' : In i (map snd (w_class w))) by (apply in_map_iff; exists (y, i); auto).
        rewrite S4 in Q'. apply in_seq in Q'. unfold n. lia.
    - intros [[-> ->]|(i & Q & R)].
      + exists n. rewrite String.eqb_refl. split; [reflexivity|]. now constructor.
      + assert (Q' : In i (map snd (w_class w))) by (apply lookup_In in Q; apply in_map_iff; exists (y, i); auto).
        rewrite S4 in Q'. apply in_seq in Q'. exists i. destruct (String.eqb_spec x y) as [<-|Ny]; [congruence|]. split; [exact Q|].
        apply Ro; [unfold n; lia|exact R]. }
  assert (Fn : forall y s, rep w y s -> s <> n).
  { intros y s (i & _ & R) ->. apply rooted_root in R. assert (n < n); [|lia]. unfold n at 2. apply nth_error_Some. congruence. }
  split; [|split; [|split]].
  - constructor; unfold w'; cbn [w_class w_parent w_rank w_nelems]; rewrite ?app_length; simpl; try lia.
    + rewrite map_app, S4, seq_app. simpl. unfold n. rewrite S1. reflexivity.
    + rewrite map_app. simpl. apply lookup_None in L. apply NoDup_Add with (a := x) (l := map fst (w_class w)); [|auto].
      rewrite <- (app_nil_r (map fst (w_class w))) at 1. apply Add_app.
    + fold w'. rewrite Lm. constructor.
      * intros i q Q. rewrite app_length. simpl. destruct (Ho _ _ Q) as [A|[_ ->]]; [pose proof (rk_in _ _ _ S6 _ _ A); lia|unfold n; lia].
      * intros i q Q N. destruct (Ho _ _ Q) as [A|[-> ->]]; [|congruence].
        pose proof (rk_in _ _ _ S6 _ _ A). assert (i < n) by (unfold n; apply nth_error_Some; congruence).
        rewrite !Rk by (unfold n; lia). eapply rk_up; eauto.
      * intros i Q. rewrite app_length in Q. simpl in Q. destruct (Nat.eq_dec i n) as [->|Ni].
        -- unfold rankf, w'. cbn [w_rank]. rewrite app_nth2 by (unfold n; lia). unfold n. rewrite S1, <- S2, Nat.sub_diag. simpl. lia.
        -- rewrite Rk by (unfold n in *; lia). apply (rk_bound _ _ _ S6). unfold n in Ni. lia.
  - assert (Fr : forall y, clos_refl_sym_trans string E x y -> y = x).
    { intros y Q. assert (G : forall a b, clos_refl_sym_trans string E a b -> a = b \/ (a <> x /\ b <> x)).
      { clear - D L. intros a b Q. induction Q as [a b Q|a|a b Q IH|a b c Q1 IH1 Q2 IH2].
        - right. destruct (D a b Q) as [A B]. split; intros ->; contradiction.
        - auto.
        - destruct IH as [->|[A B]]; auto.
        - destruct IH1 as [->|[A B]]; [exact IH2|]. destruct IH2 as [->|[A' B']]; auto. }
      destruct (G x y Q) as [->|[A _]]; [reflexivity|contradiction]. }
    intros a b r s Ra Rb. apply Rp in Ra. apply Rp in Rb.
    destruct Ra as [[-> ->]|Ra]; destruct Rb as [[-> ->]|Rb].
    + split; [intros _; apply rst_refl|reflexivity].
    + split; [intros <-; exfalso; eapply Fn; eauto|]. intros Q. apply Fr in Q. subst b. exfalso. destruct Rb as (i & Q & _). congruence.
    + split; [intros ->; exfalso; eapply Fn; eauto|]. intros Q. apply rst_sym, Fr in Q. subst a. exfalso. destruct Ra as (i & Q & _). congruence.
    + apply C; assumption.
  - intros y. change (lookup y (w_class w') <> None <-> y = x \/ lookup y (w_class w) <> None). rewrite Lk.
    destruct (String.eqb_spec x y) as [<-|N]; [split; [auto|discriminate]|]. split; [auto|]. intros [->|Q]; [contradiction|exact Q].
  - intros [A B]. split.
    + intros c k Q. assert (Q' : nth_error (w_nelems w ++ [1]) c = Some k) by exact Q. clear Q.
      destruct (Nat.lt_ge_cases c (length (w_nelems w))) as [Lc|Lc].
      * rewrite nth_error_app1 in Q' by exact Lc. destruct (A c k Q') as (l & L1 & L2 & L3). exists l.
        split; [exact L1|]. split; [exact L2|]. intros y. rewrite L3, Rp. split; [auto|].
        intros [[-> E2]|Q]; [|exact Q]. unfold n in E2. lia.
      * rewrite nth_error_app2 in Q' by exact Lc. destruct (c - length (w_nelems w)) as [|q] eqn:Eq; [|destruct q; discriminate].
        injection Q' as <-. assert (c = n) by (unfold n; lia). subst c. exists [x]. split; [constructor; [intros []|constructor]|].
        split; [reflexivity|]. intros y. rewrite Rp. simpl. split; [intros [<-|[]]; auto|].
        intros [[-> _]|Q]; [auto|]. exfalso. exact (Fn _ _ Q eq_refl).
    + unfold w'. cbn [w_num w_nelems]. rewrite filter_app, app_length. simpl. lia.
Qed.

Definition add_edge (E : string -> string -> Prop) a b : string -> string -> Prop := fun u v => E u v \/ (u = a /\ v = b).
Lemma clos_add E a b x y : clos_refl_sym_trans string (add_edge E a b) x y <->
  clos_refl_sym_trans string E x y \/ (clos_refl_sym_trans string E x a /\ clos_refl_sym_trans string E b y)
  \/ (clos_refl_sym_trans string E x b /\ clos_refl_sym_trans string E a y).
Proof.
  set (T := clos_refl_sym_trans string E). assert (Tr : forall u v w, T u v -> T v w -> T u w) by (intros; eapply rst_trans; eauto).
  assert (Ts : forall u v, T u v -> T v u) by (intros; apply rst_sym; auto). assert (Te : forall u, T u u) by (intros; apply rst_refl).
  split.
  - intros Q. induction Q as [u v [Q|[-> ->]]|u|u v Q IH|u v w Q1 IH1 Q2 IH2].
    + left. apply rst_step. exact Q.
    + right. left. auto.
    + auto.
    + destruct IH as [H|[[H1 H2]|[H1 H2]]]; auto.
    + destruct IH1 as [H|[[H1 H2]|[H1 H2]]]; destruct IH2 as [K|[[K1 K2]|[K1 K2]]]; eauto 6.
  - assert (M : forall u v, T u v -> clos_refl_sym_trans string (add_edge E a b) u v).
    { intros u v Q. induction Q as [u v Q|u|u v Q IH|u v w Q1 IH1 Q2 IH2].
      - apply rst_step. left. exact Q.
      - apply rst_refl.
      - apply rst_sym. exact IH.
      - eapply rst_trans; eauto. }
    assert (S : clos_refl_sym_trans string (add_edge E a b) a b) by (apply rst_step; right; auto).
    intros [H|[[H1 H2]|[H1 H2]]]; [auto| |].
    + eapply rst_trans; [apply M; exact H1|]. eapply rst_trans; [exact S|auto].
    + eapply rst_trans; [apply M; exact H1|]. eapply rst_trans; [apply rst_sym; exact S|auto].
Qed.

Lemma union_spec w a b E : wshape w -> classes w E -> lookup a (w_class w) <> None -> lookup b (w_class w) <> None ->
  exists w', union_set w a b = Ok w' /\ wshape w' /\ classes w' (add_edge E a b) /\ w_class w' = w_class w
    /\ (sized w -> sized w').
Proof.
  intros S C La Lb. unfold union_set.
  destruct (find_set_spec w a S La) as (c1 & w1 & F1 & R1 & S1 & K1 & Rk1 & N1 & Nm1 & Q1). rewrite F1. cbn [bind].
  destruct (find_set_spec w1 b S1) as (c2 & w2 & F2 & R2 & S2 & K2 & Rk2 & N2 & Nm2 & Q2); [rewrite K1; exact Lb|]. rewrite F2. cbn [bind].
  assert (Q : forall j s, rooted (w_parent w2) j s <-> rooted (w_parent w) j s) by (intros; rewrite Q2, Q1; tauto).
  assert (Kc : w_class w2 = w_class w) by congruence.
  assert (Rp2 : forall x r, rep w2 x r <-> rep w x r) by (intros x r; unfold rep; rewrite Kc; setoid_rewrite Q; tauto).
  assert (Rb : rep w b c2) by (destruct R2 as (i & L & R); exists i; rewrite K1 in L; split; [exact L|apply Q1; exact R]).
  assert (Cab : c1 = c2 <-> clos_refl_sym_trans string E a b) by (apply C; assumption).
  (* classes given by roots after merging [from] into [to] *)
  assert (G : forall w' from to, w_class w' = w_class w -> (from = c1 /\ to = c2 \/ from = c2 /\ to = c1) -> c1 <> c2 ->
     (forall j s, rooted (w_parent w') j s <-> (s <> from /\ rooted (w_parent w2) j s) \/ (s = to /\ rooted (w_parent w2) j from)) ->
     classes w' (add_edge E a b)).
  { intros w' from to Kw Dir N Rt x y r s Rx Ry.
    assert (X : forall x r, rep w' x r -> exists r0, rep w x r0 /\ ((r0 <> from /\ r = r0) \/ (r0 = from /\ r = to))).
    { intros x0 r0 (i & L & R). rewrite Kw in L. apply Rt in R as [[A B]|[A B]].
      - exists r0. split; [exists i; split; [exact L|apply Q; exact B]|auto].
      - exists from. split; [exists i; split; [exact L|apply Q; exact B]|auto]. }
    destruct (X x r Rx) as (r0 & Rx0 & Dx). destruct (X y s Ry) as (s0 & Ry0 & Dy).
    assert (Cxy := C x y r0 s0 Rx0 Ry0). assert (Cxa := C x a r0 c1 Rx0 R1). assert (Cxb := C x b r0 c2 Rx0 Rb).
    assert (Cya := C a y c1 s0 R1 Ry0). assert (Cyb := C b y c2 s0 Rb Ry0).
    rewrite clos_add, <- Cxy, <- Cxa, <- Cxb, <- Cya, <- Cyb.
    destruct Dir as [[-> ->]|[-> ->]]; destruct Dx as [[A1 ->]|[A1 ->]]; destruct Dy as [[B1 ->]|[B1 ->]]; intuition congruence. }
  destruct (Nat.eqb_spec c1 c2) as [Ec|Nc].
  { exists w2. split; [reflexivity|]. split; [exact S2|]. split; [|split; [exact Kc|]].
    2:{ intros [A B]. split; [|congruence]. intros c n H. rewrite N2, N1 in H. destruct (A c n H) as (l & X1 & X2 & X3).
        exists l. split; [exact X1|]. split; [exact X2|]. intros x. rewrite Rp2. apply X3. }
    intros x y r s Rx Ry. apply Rp2 in Rx. apply Rp2 in Ry. rewrite clos_add. specialize (C x y r s Rx Ry) as Cxy.
    rewrite Cxy. apply Cab in Ec. split; [auto|]. intros [H|[[H1 H2]|[H1 H2]]]; [exact H| |].
    - eapply rst_trans; [exact H1|]. eapply rst_trans; [exact Ec|exact H2].
    - eapply rst_trans; [exact H1|]. eapply rst_trans; [apply rst_sym; exact Ec|exact H2]. }
  assert (P1 : nth_error (w_parent w2) c1 = Some c1) by (destruct R1 as (i & _ & R); apply Q in R; eapply rooted_root; eauto).
  assert (P2 : nth_error (w_parent w2) c2 = Some c2) by (destruct Rb as (i & _ & R); apply Q in R; eapply rooted_root; eauto).
  assert (L1 : c1 < length (w_parent w2)) by (apply nth_error_Some; congruence).
  assert (L2 : c2 < length (w_parent w2)) by (apply nth_error_Some; congruence).
  destruct S2 as [A1 A2 A3 A4 A5 A6].
  destruct (nth_error (w_rank w2) c1) as [k1|] eqn:E1; [|apply nth_error_None in E1; lia].
  destruct (nth_error (w_rank w2) c2) as [k2|] eqn:E2; [|apply nth_error_None in E2; lia].
  destruct (nth_error (w_nelems w2) c1) as [n1|] eqn:E3; [|apply nth_error_None in E3; lia].
  destruct (nth_error (w_nelems w2) c2) as [n2|] eqn:E4; [|apply nth_error_None in E4; lia]. cbn [of_option bind].
  assert (F1' : rankf w2 c1 = k1) by (unfold rankf; apply nth_error_nth; exact E1).
  assert (F2' : rankf w2 c2 = k2) by (unfold rankf; apply nth_error_nth; exact E2).
  assert (Sz : sized w -> 0 < n1 /\ 0 < n2).
  { intros [A B]. rewrite N2, N1 in E3, E4. destruct (A _ _ E3) as (l1 & _ & <- & X1). destruct (A _ _ E4) as (l2 & _ & <- & X2).
    apply X1 in R1. apply X2 in Rb. split; [destruct l1|destruct l2]; simpl; try lia; contradiction. }
  assert (Mg : forall w' from to nf nt, w_class w' = w_class w -> (from = c1 /\ to = c2 /\ nf = n1 /\ nt = n2 \/ from = c2 /\ to = c1 /\ nf = n2 /\ nt = n1) ->
     w_nelems w' = set_nth from 0 (set_nth to (nt + nf) (w_nelems w2)) -> w_num w' = (w_num w2 - 1)%Z ->
     (forall j s, rooted (w_parent w') j s <-> (s <> from /\ rooted (w_parent w2) j s) \/ (s = to /\ rooted (w_parent w2) j from)) ->
     sized w -> sized w').
  { intros w' from to nf nt Kw Dir En Em Rt Zw. destruct (Sz Zw) as [Z1 Z2]. rewrite N2, N1 in E3, E4, En. rewrite Nm2, Nm1 in Em.
    apply (sized_merge w w' from to nf nt Zw); auto.
    - destruct Dir as [(-> & -> & _)|(-> & -> & _)]; auto.
    - destruct Dir as [(-> & _ & -> & _)|(-> & _ & -> & _)]; auto.
    - destruct Dir as [(_ & -> & _ & ->)|(_ & -> & _ & ->)]; auto.
    - destruct Dir as [(_ & _ & -> & _)|(_ & _ & -> & _)]; auto.
    - destruct Dir as [(_ & _ & _ & ->)|(_ & _ & _ & ->)]; auto.
    - intros x r. unfold rep. rewrite Kw. split.
      + intros (i & X1 & X2). apply Rt in X2 as [[X2 X3]|[X2 X3]]; apply Q in X3; [left|right]; eauto.
      + intros [[X0 (i & X1 & X2)]|[X0 (i & X1 & X2)]]; exists i; (split; [exact X1|]); apply Rt; apply Q in X2; auto.
    - intros x r s X Y. eapply rep_fun; eauto. }
  destruct (Nat.ltb_spec k2 k1) as [Lt|Ge].
  - eexists. split; [reflexivity|]. split; [|split; [|split; [exact Kc|]]].
    3:{ apply (Mg _ c2 c1 n2 n1); cbn [w_class w_parent w_nelems w_num]; auto. intros j s. apply link_rooted; auto. }
    + constructor; cbn [w_class w_parent w_rank w_nelems]; rewrite ?set_nth_length; auto.
      match goal with |- ranked _ (rankf ?w') _ => change (rankf w') with (rankf w2) end. constructor.
      * intros i q H. rewrite set_nth_length. destruct (Nat.eq_dec c2 i) as [<-|Ni].
        -- rewrite nth_set_nth_same in H by exact L2. injection H as <-. exact L1.
        -- rewrite nth_set_nth_other in H by exact Ni. eapply rk_in; eauto.
      * intros i q H N. destruct (Nat.eq_dec c2 i) as [<-|Ni].
        -- rewrite nth_set_nth_same in H by exact L2. injection H as <-. lia.
        -- rewrite nth_set_nth_other in H by exact Ni. eapply rk_up; eauto.
      * intros i H. rewrite set_nth_length in H. eapply rk_bound; eauto.
    + apply (G _ c2 c1); cbn [w_class w_parent]; auto. intros j s. apply link_rooted; auto.
  - eexists. split; [reflexivity|]. split; [|split; [|split; [exact Kc|]]].
    3:{ apply (Mg _ c1 c2 n1 n2); cbn [w_class w_parent w_nelems w_num]; auto. intros j s. apply link_rooted; auto. }
    + constructor; cbn [w_class w_parent w_rank w_nelems]; rewrite ?set_nth_length; auto.
      * destruct (k1 =? k2)%nat; rewrite ?set_nth_length; exact A2.
      * set (rk := if (k1 =? k2)%nat then set_nth c2 (k2 + 1) (w_rank w2) else w_rank w2).
        assert (Hk : forall i, i < length (w_parent w2) -> nth i rk 0 = if Nat.eq_dec i c2 then (if (k1 =? k2)%nat then k2 + 1 else k2) else rankf w2 i).
        { intros i Li. unfold rk. destruct (Nat.eq_dec i c2) as [->|Ni].
          - destruct (k1 =? k2)%nat; [|exact F2']. apply nth_error_nth. apply nth_set_nth_same. lia.
          - destruct (k1 =? k2)%nat; [|reflexivity]. unfold rankf. destruct (nth_error (w_rank w2) i) as [v|] eqn:Ev; [|apply nth_error_None in Ev; lia].
            transitivity v; [apply nth_error_nth; rewrite nth_set_nth_other by auto; exact Ev|symmetry; apply nth_error_nth; exact Ev]. }
        match goal with |- ranked _ (rankf ?w') _ => change (rankf w') with (fun i => nth i rk 0) end. constructor.
        -- intros i q H. rewrite set_nth_length. destruct (Nat.eq_dec c1 i) as [<-|Ni].
           ++ rewrite nth_set_nth_same in H by exact L1. injection H as <-. exact L2.
           ++ rewrite nth_set_nth_other in H by exact Ni. eapply rk_in; eauto.
        -- intros i q H N. destruct (Nat.eq_dec c1 i) as [<-|Ni].
           ++ rewrite nth_set_nth_same in H by exact L1. injection H as <-. rewrite !Hk by assumption.
              destruct (Nat.eq_dec c1 c2); [contradiction|]. destruct (Nat.eq_dec c2 c2); [|contradiction].
              destruct (Nat.eqb_spec k1 k2); lia.
           ++ rewrite nth_set_nth_other in H by exact Ni. pose proof (rk_in _ _ _ A6 _ _ H). pose proof (rk_up _ _ _ A6 _ _ H N).
              assert (i < length (w_parent w2)) by (apply nth_error_Some; congruence). rewrite !Hk by assumption.
              destruct (Nat.eq_dec i c2) as [->|]; [congruence|]. destruct (Nat.eq_dec q c2) as [->|]; [|assumption]. destruct (k1 =? k2)%nat; lia.
        -- intros i H. rewrite set_nth_length in H. apply list_max_In. apply nth_In. unfold rk. destruct (k1 =? k2)%nat; rewrite ?set_nth_length; lia.
    + apply (G _ c1 c2); cbn [w_class w_parent]; auto. intros j s. apply link_rooted; auto.
Qed.

(* --- histories --- *)
Record winv (w : webs) (E : string -> string -> Prop) (dom : string -> Prop) : Prop := {
  wi_shape : wshape w;
  wi_sized : sized w;
  wi_classes : classes w E;
  wi_dom : forall x, lookup x (w_class w) <> None <-> dom x;
  wi_edges : forall a b, E a b -> dom a /\ dom b
}.
Lemma classes_ext w E E' : (forall a b, E a b <-> E' a b) -> classes w E -> classes w E'.
Proof.
  intros H C x y r s Rx Ry. rewrite (C x y r s Rx Ry).
  assert (G : forall E E' : string -> string -> Prop, (forall a b, E a b <-> E' a b) -> clos_refl_sym_trans string E x y -> clos_refl_sym_trans string E' x y).
  { clear. intros E E' H Q. induction Q as [u v Q|u|u v Q IH|u v t Q1 IH1 Q2 IH2].
    - apply rst_step, H, Q.
    - apply rst_refl.
    - apply rst_sym, IH.
    - eapply rst_trans; eauto. }
  split; apply G; [exact H|]. intros; symmetry; apply H.
Qed.

Lemma join_phi_spec w E dom phi : winv w E dom ->
  exists w', join_phi w phi = Ok w' /\
    winv w' (fun u v => E u v \/ (u = fst phi /\ In v (snd phi))) (fun x => dom x \/ x = fst phi \/ In x (snd phi)).
Proof.
  intros [S Z C D Ed]. destruct phi as [d vs]. unfold join_phi. cbn [fst snd].
  destruct (initialize_spec w d E S C) as (S0 & C0 & D0 & Z0); [intros a b H; split; apply D; apply (Ed a b H)|].
  assert (G : forall vs w E (dom : string -> Prop), winv w E dom -> dom d ->
     exists w', for_each (fun w v => union_set (initialize_element w v) d v) vs w = Ok w' /\
       winv w' (fun u v => E u v \/ (u = d /\ In v vs)) (fun x => dom x \/ In x vs)).
  { clear. induction vs as [|v vs IH]; intros w E dom [S Z C D Ed] Dd; cbn [for_each].
    - exists w. split; [reflexivity|]. constructor; auto.
      + eapply classes_ext; [|exact C]. simpl. tauto.
      + intros x. rewrite D. simpl. tauto.
      + simpl. intros a b [H|[_ []]]. destruct (Ed a b H). auto.
    - destruct (initialize_spec w v E S C) as (S0 & C0 & D0 & Z0); [intros a b H; split; apply D; apply (Ed a b H)|].
      destruct (union_spec (initialize_element w v) d v E S0 C0) as (w1 & E1 & S1 & C1 & K1 & Z1);
        [apply D0; right; apply D; exact Dd|apply D0; auto|].
      rewrite E1. cbn [bind]. destruct (IH w1 (add_edge E d v) (fun x => dom x \/ x = v)) as (w' & E' & [S' Z' C' D' Ed']).
      + constructor; [exact S1|auto|exact C1| |].
        * intros x. rewrite K1, D0, D. tauto.
        * intros a b [H|[-> ->]]; [destruct (Ed a b H); auto|auto].
      + auto.
      + exists w'. split; [exact E'|]. constructor; [exact S'|exact Z'| | |].
        * eapply classes_ext; [|exact C']. intros a b. unfold add_edge. simpl. split; [intros [[H|[H1 H2]]|[H1 H2]]; auto|intros [H|[H1 [H2|H2]]]; auto].
        * intros x. rewrite D'. simpl. split; [intros [[H|H]|H]; auto|intros [H|[H|H]]; auto].
        * intros a b H. assert (H' : add_edge E d v a b \/ (a = d /\ In b vs)).
          { unfold add_edge. simpl in H. destruct H as [H|[H1 [H2|H2]]]; auto. }
          destruct (Ed' a b H') as [X Y]. simpl. split; [destruct X as [[X|X]|X]|destruct Y as [[Y|Y]|Y]]; auto. }
  destruct (G vs (initialize_element w d) E (fun x => dom x \/ x = d)) as (w' & E' & [S' Z' C' D' Ed']).
  - constructor; [exact S0|auto|exact C0| |].
    + intros x. rewrite D0, D. tauto.
    + intros a b H. destruct (Ed a b H). auto.
  - auto.
  - exists w'. split; [exact E'|]. constructor; [exact S'|exact Z'|exact C'| |].
    + intros x. rewrite D'. tauto.
    + intros a b H. destruct (Ed' a b H) as [X Y]. tauto.
Qed.

Lemma join_all_inv phis : exists w, join_all phis = Ok w /\ winv w (phi_edge phis) (occurs phis).
Proof.
  unfold join_all.
  assert (G : forall phis done w, winv w (phi_edge done) (occurs done) ->
     exists w', for_each join_phi phis w = Ok w' /\ winv w' (phi_edge (done ++ phis)) (occurs (done ++ phis))).
  { induction phis0 as [|phi phis0 IH]; intros done w I; cbn [for_each].
    - exists w. split; [reflexivity|]. rewrite app_nil_r. exact I.
    - destruct (join_phi_spec w _ _ phi I) as (w1 & E1 & [S Z C D Ed]). rewrite E1. cbn [bind].
      assert (Ex : forall u v, phi_edge (done ++ [phi]) u v <-> phi_edge done u v \/ u = fst phi /\ In v (snd phi)).
      { intros u v. unfold phi_edge. split.
        - intros (vs & I1 & I2). apply in_app_iff in I1 as [I1|[I1|[]]]; [eauto|]. subst phi. auto.
        - intros [(vs & I1 & I2)|[-> I2]]; [exists vs; split; [apply in_app_iff; auto|auto]|].
          exists (snd phi). split; [|exact I2]. apply in_app_iff. right. left. destruct phi; reflexivity. }
      assert (Ox : forall x, occurs (done ++ [phi]) x <-> occurs done x \/ x = fst phi \/ In x (snd phi)).
      { intros x. unfold occurs. split.
        - intros (d & vs & I1 & I2). apply in_app_iff in I1 as [I1|[I1|[]]]; [eauto|]. subst phi. simpl. tauto.
        - intros [(d & vs & I1 & I2)|I2]; [exists d, vs; split; [apply in_app_iff; auto|auto]|].
          exists (fst phi), (snd phi). split; [|exact I2]. apply in_app_iff. right. left. destruct phi; reflexivity. }
      destruct (IH (done ++ [phi]) w1) as (w' & E' & I').
      + constructor; [exact S|exact Z| | |].
        * eapply classes_ext; [|exact C]. intros; rewrite Ex; tauto.
        * intros x. rewrite D, Ox. tauto.
        * intros a b H. apply Ex in H. rewrite !Ox. apply Ed. exact H.
      + exists w'. split; [exact E'|]. rewrite <- app_assoc in I'. exact I'. }
  apply (G phis [] empty_webs). constructor.
  - constructor; simpl; try reflexivity; try constructor; simpl; try (intros [|i] ? Q; discriminate Q). intros; lia.
  - split; [intros [|c] n Q; discriminate|reflexivity].
  - intros x y r s (i & Q & _). discriminate.
  - intros x. simpl. split; [congruence|]. intros (d & vs & [] & _).
  - intros a b (vs & [] & _).
Qed.

(** After any history of joins, from the empty structure: the structure knows
    exactly the variables that occur; looking a variable up succeeds, changes
    no answer, and two variables get the same class number exactly when they
    are connected through phi functions. *)
Theorem phi_webs_are_components : forall phis, exists w, join_all phis = Ok w
  /\ (forall x, lookup x (w_class w) <> None <-> occurs phis x)
  /\ (forall x, occurs phis x -> exists r w', find_set w x = Ok (r, w'))
  /\ (forall x y r s w1 w2, find_set w x = Ok (r, w1) -> find_set w1 y = Ok (s, w2) ->
        (r = s <-> connected phis x y)).
Proof.
  intros phis. destruct (join_all_inv phis) as (w & E & [S Z C D Ed]). exists w. split; [exact E|]. split; [exact D|]. split.
  - intros x H. apply D in H. destruct (find_set_spec w x S H) as (r & w' & F & _). eauto.
  - intros x y r s w1 w2 F1 F2.
    assert (Lx : lookup x (w_class w) <> None) by (unfold find_set in F1; destruct (lookup x (w_class w)); [discriminate|discriminate F1]).
    destruct (find_set_spec w x S Lx) as (r' & w1' & F1' & R1 & S1 & K1 & _ & _ & _ & Q1). rewrite F1 in F1'. injection F1' as <- <-.
    assert (Ly : lookup y (w_class w1) <> None) by (unfold find_set in F2; destruct (lookup y (w_class w1)); [discriminate|discriminate F2]).
    destruct (find_set_spec w1 y S1 Ly) as (s' & w2' & F2' & R2 & _). rewrite F2 in F2'. injection F2' as <- <-.
    apply C; [exact R1|]. destruct R2 as (i & L & R). exists i. rewrite K1 in L. split; [exact L|apply Q1; exact R].
Qed.
Print Assumptions phi_webs_are_components.

(* --- get_sets --- *)
Lemma add_to_class_In d r x k s : In (k, s) (add_to_class r x d) ->
  In (k, s) d \/ (k = r /\ exists s0, s = s0 ++ [x] /\ (In (k, s0) d \/ (s0 = [] /\ ~ In r (map fst d)))).
Proof.
  induction d as [|[k0 s0] d IH]; simpl.
  - intros [H|[]]. injection H as <- <-. right. split; [reflexivity|]. exists []. auto.
  - destruct (Nat.eqb_spec k0 r) as [->|N].
    + intros [H|H]; [|auto]. injection H as <- <-. right. split; [reflexivity|]. exists s0. auto.
    + intros [H|H]; [auto|]. destruct (IH H) as [G|(G1 & s1 & G2 & [G3|[G3 G4]])]; [auto| |].
      * right. split; [exact G1|]. exists s1. auto.
      * right. split; [exact G1|]. exists s1. split; [exact G2|]. right. split; [exact G3|]. intros [Q|Q]; [congruence|auto].
Qed.
Lemma add_to_class_keys d r x k : In k (map fst (add_to_class r x d)) <-> In k (map fst d) \/ k = r.
Proof.
  induction d as [|[k0 s0] d IH]; simpl; [split; [intros [H|[]]; auto|intros [[]|H]; auto]|].
  destruct (Nat.eqb_spec k0 r) as [->|N]; simpl.
  - split; [auto|intros [H| ->]; auto].
  - split; [intros [H|H]; [auto|apply IH in H; tauto]|intros [[H|H]|H]; [auto|right; apply IH; auto|right; apply IH; auto]].
Qed.
Lemma add_to_class_NoDup d r x : NoDup (map fst d) -> NoDup (map fst (add_to_class r x d)).
Proof.
  induction d as [|[k0 s0] d IH]; simpl; intros N; [repeat constructor; auto|].
  inversion N as [|? ? N1 N2]; subst. destruct (Nat.eqb_spec k0 r) as [->|Nk]; simpl; [exact N|].
  constructor; [|auto]. intros H. apply add_to_class_keys in H as [H|H]; auto.
Qed.
Lemma add_to_class_has d r x : exists s, In (r, s) (add_to_class r x d) /\ In x s.
Proof.
  induction d as [|[k0 s0] d (s & I1 & I2)]; simpl; [exists [x]; simpl; auto|].
  destruct (Nat.eqb_spec k0 r) as [->|Nk].
  - exists (s0 ++ [x]). split; [left; reflexivity|]. apply in_app_iff. simpl. auto.
  - exists s. split; [right; exact I1|exact I2].
Qed.
Lemma add_to_class_mono d r x k s y : In (k, s) d -> In y s -> exists s', In (k, s') (add_to_class r x d) /\ In y s'.
Proof.
  induction d as [|[k0 s0] d IH]; simpl; [intros []|]. destruct (Nat.eqb_spec k0 r) as [->|Nk].
  - intros [H|H] Iy; [injection H as <- <-; exists (s0 ++ [x]); split; [left; reflexivity|apply in_app_iff; auto]|].
    exists s. split; [right; exact H|exact Iy].
  - intros [H|H] Iy; [injection H as <- <-; exists s0; split; [left; reflexivity|exact Iy]|].
    destruct (IH H Iy) as (s' & I1 & I2). exists s'. split; [right; exact I1|exact I2].
Qed.

(** The reported sets: no set twice the same element, the sets are pairwise
    disjoint, each is a whole connected component with at least two variables,
    and every component with two variables is reported. *)
Theorem phi_sets_are_components : forall phis w, join_all phis = Ok w -> exists sets, get_sets w = Ok sets
  /\ (forall s, In s sets -> 2 <= length s /\ NoDup s)
  /\ (forall i j s t x, nth_error sets i = Some s -> nth_error sets j = Some t -> In x s -> In x t -> i = j)
  /\ (forall s x y, In s sets -> In x s -> occurs phis x /\ (In y s <-> connected phis x y))
  /\ (forall x y, connected phis x y -> x <> y -> exists s, In s sets /\ In x s /\ In y s).
Proof.
  intros phis w Ew. destruct (join_all_inv phis) as (w0 & E0 & [S Z C D Ed]). rewrite Ew in E0. injection E0 as <-.
  unfold get_sets.
  set (step := fun (st : list nat * list (nat * list string)) (xi : string * nat) => let '(parents, d) := st in
     do rp <- find_index (Datatypes.S (list_max (w_rank w))) (snd xi) parents;
     let '(r, parents') := rp in Ok (parents', add_to_class r (fst xi) d)).
  set (M := list_max (w_rank w)).
  (* invariant of the grouping loop *)
  assert (G : forall todo done p d, w_class w = done ++ todo -> ranked p (rankf w) M -> length p = length (w_parent w) ->
     (forall j s, rooted p j s <-> rooted (w_parent w) j s) -> NoDup (map fst d) ->
     (forall k s, In (k, s) d -> NoDup s /\ forall x, In x s -> In x (map fst done) /\ rep w x k) ->
     (forall x, In x (map fst done) -> exists k s, In (k, s) d /\ In x s) ->
     exists p' d', for_each step todo (p, d) = Ok (p', d') /\ NoDup (map fst d') /\
       (forall k s, In (k, s) d' -> NoDup s /\ forall x, In x s -> In x (map fst (w_class w)) /\ rep w x k) /\
       (forall x, In x (map fst (w_class w)) -> exists k s, In (k, s) d' /\ In x s)).
  { induction todo as [|[x i] todo IH]; intros done p d Hc Rk Len Eq Nd I1 I2; cbn [for_each].
    - rewrite app_nil_r in Hc. rewrite Hc. exists p, d. auto.
    - assert (Li : lookup x (w_class w) = Some i).
      { pose proof (ws_keys _ S) as K. rewrite Hc in K |- *. rewrite map_app in K. simpl in K. rewrite lookup_app.
        assert (Nx : ~ In x (map fst done)) by (apply NoDup_remove_2 in K; rewrite in_app_iff in K; tauto).
        apply lookup_None in Nx. rewrite Nx. simpl. now rewrite String.eqb_refl. }
      destruct (find_index_spec (rankf w) M (Datatypes.S M) i p) as (r & p1 & F & R & Len1 & Rk1 & Eq1);
        [exact Rk|rewrite Len; eapply class_lt; eauto|lia|].
      unfold step at 1. cbn [fst snd]. fold M. rewrite F. cbn [bind].
      assert (Rx : rep w x r) by (exists i; split; [exact Li|apply Eq; exact R]).
      assert (Fx : ~ In x (map fst done)).
      { pose proof (ws_keys _ S) as K. rewrite Hc, map_app in K. simpl in K. apply NoDup_remove_2 in K. rewrite in_app_iff in K. tauto. }
      apply (IH (done ++ [(x, i)])); auto.
      + rewrite <- app_assoc. exact Hc.
      + lia.
      + intros j s. rewrite Eq1. apply Eq.
      + apply add_to_class_NoDup, Nd.
      + intros k s H. rewrite map_app. simpl. destruct (add_to_class_In _ _ _ _ _ H) as [H1|(-> & s0 & -> & [H1|[-> _]])].
        * destruct (I1 k s H1) as [A B]. split; [exact A|]. intros y Iy. destruct (B y Iy). rewrite in_app_iff. auto.
        * destruct (I1 r s0 H1) as [A B]. split.
          -- apply NoDup_Add with (a := x) (l := s0); [rewrite <- (app_nil_r s0) at 1; apply Add_app|]. split; [exact A|].
             intros Iy. apply Fx. apply (B x Iy).
          -- intros y Iy. rewrite in_app_iff. apply in_app_iff in Iy as [Iy|[<-|[]]]; [destruct (B y Iy); auto|simpl; auto].
        * split; [repeat constructor; auto|]. intros y [<-|[]]. rewrite in_app_iff. simpl. auto.
      + intros y Iy. rewrite map_app, in_app_iff in Iy. destruct Iy as [Iy|[<-|[]]].
        * destruct (I2 y Iy) as (k & s & A & B). destruct (add_to_class_mono _ r x _ _ _ A B) as (s' & A' & B'). eauto.
        * destruct (add_to_class_has d r x) as (s & A & B). eauto. }
  destruct (G (w_class w) [] (w_parent w) []) as (p' & d' & F & Nd & I1 & I2); auto.
  { apply S. } { tauto. } { constructor. } { intros k s []. } { intros x []. }
  rewrite F. cbn [bind snd]. eexists. split; [reflexivity|].
  assert (Hin : forall s, In s (filter (fun s => (1 <? length s)%nat) (map snd d')) <-> exists k, In (k, s) d' /\ 2 <= length s).
  { intros s. rewrite filter_In, in_map_iff. split.
    - intros (([k s'] & <- & I) & L). apply Nat.ltb_lt in L. exists k. split; [exact I|simpl in L |- *; lia].
    - intros (k & I & L). split; [exists (k, s); auto|]. apply Nat.ltb_lt. lia. }
  assert (Occ : forall x, In x (map fst (w_class w)) <-> occurs phis x).
  { intros x. rewrite <- D. destruct (lookup x (w_class w)) as [v|] eqn:L; split; intros H; try discriminate; try congruence.
    - apply lookup_In in L. apply in_map_iff. exists (x, v). auto.
    - exfalso. apply lookup_None in L. contradiction. }
  assert (Key : forall k s k' s', In (k, s) d' -> In (k', s') d' -> k = k' -> s = s').
  { clear - Nd. induction d' as [|[a b] d' IH]; intros k s k' s' H H' <-; [destruct H|]. simpl in Nd. inversion Nd as [|? ? N1 N2]; subst.
    destruct H as [H|H]; destruct H' as [H'|H'].
    - congruence.
    - injection H as <- <-. exfalso. apply N1. apply in_map_iff. exists (a, s'). auto.
    - injection H' as <- <-. exfalso. apply N1. apply in_map_iff. exists (a, s). auto.
    - eapply IH; eauto. }
  split; [|split; [|split]].
  - intros s H. apply Hin in H as (k & I & L). split; [exact L|]. apply (I1 k s I).
  - intros i j s t x Hi Hj Ix Iy.
    assert (Nm : forall l : list (nat * list string), NoDup (map fst l) -> (forall k s, In (k, s) l -> In (k, s) d') ->
       forall i j s t, nth_error (filter (fun s => (1 <? length s)%nat) (map snd l)) i = Some s ->
       nth_error (filter (fun s => (1 <? length s)%nat) (map snd l)) j = Some t -> In x s -> In x t -> i = j).
    { clear Hi Hj Ix Iy i j s t. induction l as [|[k b] l IH]; intros N Sub i j s t Hi Hj Ix Iy; [destruct i; discriminate|].
      simpl in N. inversion N as [|? ? N1 N2]; subst.
      assert (Dis : forall t, In t (filter (fun s => (1 <? length s)%nat) (map snd l)) -> In x t -> In x b -> False).
      { intros t' It Ixt Ixb. apply filter_In in It as [It _]. apply in_map_iff in It as ([k' t0] & <- & It). simpl in Ixt.
        destruct (I1 k b (Sub k b (or_introl eq_refl))) as [_ B1]. destruct (B1 x Ixb) as [_ R1].
        destruct (I1 k' t0 (Sub k' t0 (or_intror It))) as [_ B2]. destruct (B2 x Ixt) as [_ R2].
        pose proof (rep_fun _ _ _ _ R1 R2). subst k'. apply N1. apply in_map_iff. exists (k, t0). auto. }
      simpl in Hi, Hj. destruct (1 <? length b)%nat.
      - destruct i as [|i]; destruct j as [|j]; simpl in Hi, Hj.
        + reflexivity.
        + injection Hi as <-. exfalso. eapply Dis; [eapply nth_error_In; exact Hj|exact Iy|exact Ix].
        + injection Hj as <-. exfalso. eapply Dis; [eapply nth_error_In; exact Hi|exact Ix|exact Iy].
        + f_equal. eapply IH; eauto. intros k0 s0 H0. apply Sub. right. exact H0.
      - eapply IH; eauto. intros k0 s0 H0. apply Sub. right. exact H0. }
    eapply (Nm d'); eauto.
  - intros s x y H Ix. apply Hin in H as (k & I & L). destruct (I1 k s I) as [_ B]. destruct (B x Ix) as [Ox Rx].
    split; [apply Occ; exact Ox|]. split.
    + intros Iy. destruct (B y Iy) as [_ Ry]. apply (C x y k k Rx Ry). reflexivity.
    + intros Q. assert (Oy : occurs phis y).
      { apply Occ in Ox. clear - Q Ox. unfold connected in Q. assert (Hb : occurs phis x <-> occurs phis y); [|tauto].
        clear Ox. induction Q as [a b (vs & H1 & H2)|a|a b _ IH|a b c _ IH1 _ IH2]; try tauto.
        split; intros _; exists a, vs; auto. }
      apply Occ in Oy. destruct (I2 y Oy) as (k' & s' & I' & Iy). destruct (I1 k' s' I') as [_ B']. destruct (B' y Iy) as [_ Ry].
      assert (k = k') by (apply (C x y k k' Rx Ry); exact Q). subst k'. rewrite (Key _ _ _ _ I I' eq_refl). exact Iy.
  - intros x y Q N.
    assert (Ox : occurs phis x /\ occurs phis y).
    { unfold connected in Q. assert (G2 : x = y \/ occurs phis x /\ occurs phis y); [|destruct G2; [contradiction|auto]].
      clear N. induction Q as [a b (vs & H1 & H2)|a|a b _ IH|a b c _ IH1 _ IH2]; auto.
      - right. split; exists a, vs; auto.
      - destruct IH as [->|[A B]]; auto.
      - destruct IH1 as [->|[A B]]; auto. destruct IH2 as [->|[A' B']]; auto. }
    destruct Ox as [Ox Oy]. apply Occ in Ox. apply Occ in Oy.
    destruct (I2 x Ox) as (k & s & I & Ix). destruct (I2 y Oy) as (k' & s' & I' & Iy).
    destruct (I1 k s I) as [_ B]. destruct (B x Ix) as [_ Rx]. destruct (I1 k' s' I') as [_ B']. destruct (B' y Iy) as [_ Ry].
    assert (k = k') by (apply (C x y k k' Rx Ry); exact Q). subst k'. rewrite <- (Key _ _ _ _ I I' eq_refl) in Iy.
    exists s. split; [|auto]. apply Hin. exists k. split; [exact I|].
    destruct s as [|u [|v s0]]; simpl in *; [contradiction| |lia]. destruct Ix as [<-|[]]. destruct Iy as [<-|[]]. contradiction.
Qed.
Print Assumptions phi_sets_are_components.

(** Two joins that share [b], and an unrelated one: [a], [b], [c] and [d] end
    together, [x] and [y] apart from them. *)
Example phi_webs_example : exists w, join_all [("a", ["b"]); ("x", ["y"]); ("c", ["d"; "b"])] = Ok w
  /\ get_sets w = Ok [["a"; "b"; "c"; "d"]; ["x"; "y"]].
Proof. eexists. split; vm_compute; reflexivity. Qed.

(** The counts the structure keeps: the classes listed as having elements are
    exactly the class numbers that looking a variable up can give; there are
    [num_sets] of them; and [num_elements] distinct variables occur. *)
Lemma filter_combine_seq (l : list nat) : forall k c, In c (map fst (filter (fun p => (0 <? snd p)%nat) (combine (seq k (length l)) l)))
  <-> k <= c /\ exists n, nth_error l (c - k) = Some n /\ 0 < n.
Proof.
  induction l as [|a l IH]; intros k c; cbn [length seq combine filter map snd].
  - split; [intros []|]. intros (_ & n & H & _). destruct (c - k); discriminate.
  - assert (X : In c (map fst (filter (fun p => (0 <? snd p)%nat) (combine (seq (S k) (length l)) l)))
      <-> S k <= c /\ exists n, nth_error (a :: l) (c - k) = Some n /\ 0 < n).
    { rewrite IH. split; intros (L & n & H); (split; [lia|]); exists n; [replace (c - k) with (S (c - S k)) by lia; exact H|].
      replace (c - k) with (S (c - S k)) in H by lia. exact H. }
    destruct (Nat.ltb_spec 0 a) as [P|P]; cbn [map fst In]; rewrite X.
    + split; [intros [<-|(L & H)]; [split; [lia|]; exists a; rewrite Nat.sub_diag; auto|split; [lia|exact H]]|].
      intros (L & H). destruct (Nat.eq_dec k c) as [->|N]; [auto|]. right. split; [lia|exact H].
    + split; [intros (L & H); split; [lia|exact H]|]. intros (L & n & H & Pn). split; [|eauto].
      destruct (Nat.eq_dec k c) as [->|N]; [|lia]. rewrite Nat.sub_diag in H. injection H as <-. lia.
Qed.
Lemma filter_combine_NoDup (l : list nat) : forall k,
  NoDup (map fst (filter (fun p => (0 <? snd p)%nat) (combine (seq k (length l)) l)))
  /\ length (map fst (filter (fun p => (0 <? snd p)%nat) (combine (seq k (length l)) l))) = length (filter (fun n => (0 <? n)%nat) l).
Proof.
  induction l as [|a l IH]; intros k; cbn [length seq combine filter map snd]; [split; [constructor|reflexivity]|].
  destruct (IH (S k)) as [A B]. destruct (0 <? a)%nat; cbn [map fst length]; [|auto]. split; [|congruence].
  constructor; [|exact A]. intros Q. apply filter_combine_seq in Q. lia.
Qed.

Theorem phi_web_counts : forall phis w, join_all phis = Ok w ->
  NoDup (classes_with_elements w)
  /\ (forall c, In c (classes_with_elements w) <-> exists x w', occurs phis x /\ find_set w x = Ok (c, w'))
  /\ num_sets w = Z.of_nat (length (classes_with_elements w))
  /\ exists vars, NoDup vars /\ length vars = num_elements w /\ forall x, In x vars <-> occurs phis x.
Proof.
  intros phis w Ew. destruct (join_all_inv phis) as (w0 & E0 & [S [Za Zb] C D Ed]). rewrite Ew in E0. injection E0 as <-.
  destruct (filter_combine_NoDup (w_nelems w) 0) as [N1 N2]. unfold classes_with_elements.
  split; [exact N1|]. split; [|split].
  - intros c. rewrite filter_combine_seq. rewrite Nat.sub_0_r. split.
    + intros (_ & n & Hn & P). destruct (Za c n Hn) as (l & L1 & <- & L3). destruct l as [|x l]; [simpl in P; lia|].
      assert (Rx : rep w x c) by (apply L3; simpl; auto).
      assert (Lx : lookup x (w_class w) <> None) by (destruct Rx as (i & Q & _); congruence).
      destruct (find_set_spec w x S Lx) as (r & w' & F & R & _). exists x, w'. split; [apply D; exact Lx|].
      rewrite (rep_fun w x c r Rx R). exact F.
    + intros (x & w' & Ox & F). split; [lia|]. apply D in Ox. destruct (find_set_spec w x S Ox) as (r & w1 & F' & R & _).
      rewrite F in F'. injection F' as <- <-.
      assert (Lc : c < length (w_nelems w)).
      { destruct R as (i & _ & R). apply rooted_root in R. rewrite (ws_nel _ S), <- (ws_len _ S). apply nth_error_Some. congruence. }
      destruct (nth_error (w_nelems w) c) as [n|] eqn:Hn; [|apply nth_error_None in Hn; lia]. exists n. split; [reflexivity|].
      destruct (Za c n Hn) as (l & _ & <- & L3). apply L3 in R. destruct l; [destruct R|simpl; lia].
  - unfold num_sets. rewrite Zb, N2. reflexivity.
  - exists (map fst (w_class w)). split; [apply S|]. split; [apply map_length|]. intros x. rewrite <- D.
    destruct (lookup x (w_class w)) as [v|] eqn:L.
    + split; [discriminate|]. intros _. apply lookup_In in L. apply in_map_iff. exists (x, v). auto.
    + apply lookup_None in L. split; [contradiction|congruence].
Qed.
Print Assumptions phi_web_counts.
Example phi_web_counts_example : exists w, join_all [("a", ["b"]); ("x", ["y"]); ("c", ["d"; "b"])] = Ok w
  /\ num_sets w = 2%Z /\ num_elements w = 6 /\ classes_with_elements w = [1; 3].
Proof. eexists. repeat (split; [vm_compute; reflexivity|]). vm_compute. reflexivity. Qed.
