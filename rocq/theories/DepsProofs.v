(** Proofs about the dependency analysis. *)
From Coq Require Import Relations.
From Verif Require Import Base Lexical DepsModel DepsSpec.

Lemma in_ordered_pairs_app {A} (x y : A) a b : In x a -> In y b -> In (x, y) (ordered_pairs (a ++ b)).
Proof.
  induction a as [|z a IH]; simpl; [tauto|]. intros [->|Hx] Hy.
  - apply in_app_iff. left. apply in_map. apply in_app_iff; auto.
  - apply in_app_iff. right. auto.
Qed.

Lemma collect_nth {A} (f : list cins -> nat -> cins -> result (list A)) l : forall pre i acc k ins,
  collect f pre i l = Ok acc -> nth_error l k = Some ins ->
  exists a xs b, acc = a ++ xs ++ b /\ f (pre ++ firstn k l) (i + k) ins = Ok xs
    /\ forall k2 ins2, k < k2 -> nth_error l k2 = Some ins2 ->
       exists xs2, f (pre ++ firstn k2 l) (i + k2) ins2 = Ok xs2 /\ incl xs2 b.
Proof.
  induction l as [|x l IH]; intros pre i acc k ins H Hn; [destruct k; discriminate|].
  cbn [collect] in H. apply bind_ok in H as (xs & H1 & H). apply bind_ok in H as (ys & H2 & H).
  injection H as <-. destruct k as [|k].
  - cbn in Hn. injection Hn as ->. exists [], xs, ys. split; [reflexivity|]. split.
    + rewrite app_nil_r, Nat.add_0_r. exact H1.
    + intros k2 ins2 Hk H3. destruct k2 as [|k2]; [lia|]. cbn in H3.
      destruct (IH _ _ _ _ _ H2 H3) as (a & xs2 & b & -> & E & _).
      exists xs2. split.
      * cbn [firstn]. rewrite <- app_assoc in E. cbn in E. replace (i + S k2) with (S i + k2) by lia. exact E.
      * intros z Hz. apply in_app_iff. right. apply in_app_iff; auto.
  - cbn in Hn. destruct (IH _ _ _ _ _ H2 Hn) as (a & xs2 & b & -> & E & R).
    exists (xs ++ a), xs2, b. split; [rewrite <- app_assoc; reflexivity|]. split.
    + cbn [firstn]. rewrite <- app_assoc in E. cbn in E. replace (i + S k) with (S i + k) by lia. exact E.
    + intros k2 ins2 Hk H3. destruct k2 as [|k2]; [lia|]. cbn in H3.
      destruct (R k2 ins2 ltac:(lia) H3) as (xs3 & E3 & I3). exists xs3. split; auto.
      cbn [firstn]. rewrite <- app_assoc in E3. cbn in E3. replace (i + S k2) with (S i + k2) by lia. exact E3.
Qed.

Lemma collect_pair {A} (f : list cins -> nat -> cins -> result (list A)) l acc m n i j :
  collect f [] 0 l = Ok acc -> m < n -> nth_error l m = Some i -> nth_error l n = Some j ->
  exists xs ys, f (firstn m l) m i = Ok xs /\ f (firstn n l) n j = Ok ys
    /\ forall x y, In x xs -> In y ys -> In (x, y) (ordered_pairs acc).
Proof.
  intros H Hmn Hm Hn. destruct (collect_nth f l _ _ _ _ _ H Hm) as (a & xs & b & -> & E & R).
  destruct (R n j Hmn Hn) as (ys & E2 & I). exists xs, ys. split; [exact E|]. split; [exact E2|].
  intros x y Hx Hy. rewrite app_assoc. apply in_ordered_pairs_app; auto. apply in_app_iff; auto.
Qed.

Lemma startswith_0x_dec v : {startswith "0x" v = true} + {startswith "0x" v = false}.
Proof. destruct (startswith "0x" v); auto. Qed.

Lemma get_expression_int fuel v pre z : get_expression fuel v pre = Ok (EInt z) ->
  startswith "0x" v = true /\ py_int16 v = Some z.
Proof.
  destruct fuel as [|fuel]; [discriminate|]. cbn [get_expression].
  destruct (startswith "0x" v).
  - intros H. apply bind_ok in H as (z' & H1 & H). apply of_option_ok in H1. injection H as ->. auto.
  - destruct (filter _ pre); [discriminate|]. intros H. apply bind_ok in H as (u & _ & H).
    apply bind_ok in H as (args & _ & H). discriminate.
Qed.

Lemma get_expression_val fuel v pre z e : get_expression fuel v pre = Ok (EInt z) -> arg_val e v = Some z.
Proof. intros H. apply get_expression_int in H as [H1 H2]. unfold arg_val. rewrite H1. exact H2. Qed.

Lemma get_expression_var fuel v pre x : get_expression fuel v pre = Ok (EVar x) -> v = x.
Proof.
  destruct fuel as [|fuel]; [discriminate|]. cbn [get_expression].
  destruct (startswith "0x" v).
  - intros H. apply bind_ok in H as (z' & _ & H). discriminate.
  - destruct (filter _ pre); [congruence|]. intros H. apply bind_ok in H as (u & _ & H).
    apply bind_ok in H as (args & _ & H). discriminate.
Qed.

Lemma map_result_In {A B} (f : A -> result B) l ys y : map_result f l = Ok ys -> In y ys ->
  exists x, In x l /\ f x = Ok y.
Proof.
  revert ys; induction l as [|a l IH]; cbn [map_result]; intros ys H Hy.
  - injection H as <-. destruct Hy.
  - apply bind_ok in H as (b & H1 & H). apply bind_ok in H as (bs & H2 & H). injection H as <-.
    destruct Hy as [<-|Hy]; [exists a; simpl; auto|].
    destruct (IH _ H2 Hy) as (x & Hx & E). exists x; simpl; auto.
Qed.

Lemma member_computed_from pre : forall fuel v e x, get_expression fuel v pre = Ok e ->
  is_member_recursive x e = true -> v = x \/ computed_from pre v x.
Proof.
  induction fuel as [|fuel IH]; [discriminate|]. intros v e x. cbn [get_expression].
  destruct (startswith "0x" v).
  - intros H. apply bind_ok in H as (z & _ & H). injection H as <-. discriminate.
  - destruct (filter _ pre) as [|c cs] eqn:F.
    + intros H. injection H as <-. cbn. intros H. apply String.eqb_eq in H. auto.
    + intros H. apply bind_ok in H as (u & _ & H). apply bind_ok in H as (args & H1 & H).
      injection H as <-. cbn. intros H. apply existsb_exists in H as (a & Ha & M).
      destruct (map_result_In _ _ _ _ H1 Ha) as (w & Hw & E).
      assert (U : uses pre v w).
      { assert (Hc : In c (filter (fun i => mem v (c_out i)) pre)) by (rewrite F; simpl; auto).
        apply filter_In in Hc as [Hc Hm]. apply mem_In in Hm. exists c; auto. }
      right. destruct (IH _ _ _ E M) as [<-|T]; [apply t_step; auto|].
      eapply t_trans; [apply t_step; exact U | exact T].
Qed.

Lemma op_computed_from pre fuel v op args x : get_expression fuel v pre = Ok (EOp op args) ->
  is_member_recursive x (EOp op args) = true -> computed_from pre v x.
Proof.
  destruct fuel as [|fuel]; [discriminate|]. cbn [get_expression].
  destruct (startswith "0x" v).
  { intros H. apply bind_ok in H as (z & _ & H). discriminate. }
  destruct (filter _ pre) as [|c cs] eqn:F; [discriminate|].
  intros H. apply bind_ok in H as (u & _ & H). apply bind_ok in H as (args' & H1 & H).
  injection H as <- <-. cbn. intros H. apply existsb_exists in H as (a & Ha & M).
  destruct (map_result_In _ _ _ _ H1 Ha) as (w & Hw & E).
  assert (U : uses pre v w).
  { assert (Hc : In c (filter (fun i => mem v (c_out i)) pre)) by (rewrite F; simpl; auto).
    apply filter_In in Hc as [Hc Hm]. apply mem_In in Hm. exists c; auto. }
  destruct (member_computed_from _ _ _ _ _ E M) as [<-|T]; [apply t_step; auto|].
  eapply t_trans; [apply t_step; exact U | exact T].
Qed.

Lemma expr_of_val pre v z e : expr_of pre v = Ok (EInt z) -> arg_val e v = Some z.
Proof. apply get_expression_val. Qed.
Lemma expr_of_var pre v x : expr_of pre v = Ok (EVar x) -> v = x.
Proof. apply get_expression_var. Qed.
Lemma expr_of_op pre v op args x : expr_of pre v = Ok (EOp op args) ->
  is_member_recursive x (EOp op args) = true -> computed_from pre v x.
Proof. apply op_computed_from. Qed.

Lemma computed_from_incl l1 l2 y x : incl l1 l2 -> computed_from l1 y x -> computed_from l2 y x.
Proof.
  intros I H. induction H as [a b (i & H1 & H2)|a b c H1 IH1 H2 IH2].
  - apply t_step. exists i; auto.
  - eapply t_trans; eauto.
Qed.

Lemma firstn_incl {A} n (l : list A) : incl (firstn n l) l.
Proof.
  intros x Hx. rewrite <- (firstn_skipn n l). apply in_app_iff; auto.
Qed.

(** The slot analysis, for either kind of storage. *)
Section Slots.
Variables load store : string.
Hypothesis Hld : get_type_mem_op load = Some "read"%string.
Hypothesis Hst : get_type_mem_op store = Some "write"%string.
Hypothesis Hload_call : ~ In load call_ops.
Hypothesis Hstore_call : ~ In store call_ops.

Lemma call_is_call_ops i : is_call i <-> In (c_op i) call_ops.
Proof. unfold is_call, call_ops. simpl. tauto. Qed.

Lemma slot_entry_cases pre n i xs : slot_entry [load; store] pre n i = Ok xs ->
  (exists v ex, In (c_op i) [load; store] /\ nth_error (c_in i) 0 = Some v /\ expr_of pre v = Ok ex
     /\ xs = [(n, ex, get_type_mem_op (c_op i))])
  \/ (~ In (c_op i) [load; store] /\ is_call i /\ xs = [(n, EVar "inf", Some "write"%string)])
  \/ (~ In (c_op i) [load; store] /\ ~ is_call i /\ xs = []).
Proof.
  unfold slot_entry. destruct (mem (c_op i) [load; store]) eqn:M.
  - apply mem_In in M. intros H. apply bind_ok in H as (v & Hv & H). apply bind_ok in H as (ex & He & H).
    injection H as <-. unfold arg in Hv. apply of_option_ok in Hv. left. exists v, ex. auto.
  - apply mem_false in M. destruct (mem (c_op i) call_ops) eqn:C.
    + apply mem_In in C. intros H. injection H as <-. right; left. rewrite call_is_call_ops. auto.
    + apply mem_false in C. intros H. injection H as <-. right; right. rewrite call_is_call_ops. auto.
Qed.

Definition slot_arg (i : cins) : option string := nth_error (c_in i) 0.
(** The slot of one access is computed from the slot variable of the other. *)
Definition slots_related (instrs : list cins) (i j : cins) : Prop :=
  exists a b, slot_arg i = Some a /\ slot_arg j = Some b
    /\ (computed_from instrs a b \/ computed_from instrs b a).

Lemma slot_deps_sound instrs deps : slot_dependences [load; store] instrs = Ok deps ->
  forall m n i j e, m < n -> nth_error instrs m = Some i -> nth_error instrs n = Some j ->
  slot_conflict load store e i j -> ~ is_create i -> ~ is_create j ->
  ~ slots_related instrs i j -> In (m, n) deps.
Proof.
  unfold slot_dependences. intros H m n i j e Hmn Hm Hn C Ci Cj NR.
  apply bind_ok in H as (acc & Hacc & H). injection H as <-.
  destruct (collect_pair _ _ _ _ _ _ _ Hacc Hmn Hm Hn) as (xs & ys & E1 & E2 & P).
  assert (LS : load <> store) by (intros ->; rewrite Hst in Hld; discriminate).
  assert (K : forall x, In (c_op x) [load; store] -> ~ is_call x).
  { intros x Hx Hc. apply call_is_call_ops in Hc. simpl in Hx.
    destruct Hx as [Q|[Q|[]]]; rewrite <- Q in Hc; auto. }
  (* both touch a slot; one writes *)
  assert (W : exists s, (slot_read load e i s \/ slot_write store e i s)
             /\ (slot_read load e j s \/ slot_write store e j s)
             /\ (slot_write store e i s \/ slot_write store e j s)).
  { destruct C as (s & [[A B]|[A B]]); exists s; tauto. }
  destruct W as (s & Ti & Tj & Tw).
  assert (Touch : forall x, ~ is_create x -> slot_read load e x s \/ slot_write store e x s ->
            is_call x \/ (In (c_op x) [load; store] /\ nth_val e x 0 s)).
  { intros x Cx [[[A B]|[A|A]]|[[A B]|[[A _]|A]]]; auto; try tauto; right; simpl; auto. }
  assert (Wr : forall x pre k zs, ~ is_create x -> slot_entry [load; store] pre k x = Ok zs ->
            slot_write store e x s -> forall z, In z zs -> is_write (snd z) = true).
  { intros x pre k zs Cx Ez Hw z Hz. destruct (slot_entry_cases _ _ _ _ Ez)
      as [(v & ex & I & _ & _ & ->)|[(I & _ & ->)|(I & _ & ->)]].
    - destruct Hz as [<-|[]]. cbn. destruct Hw as [[Q _]|[[Q _]|Q]]; [|exfalso; eapply K; eauto|tauto].
      rewrite Q, Hst. reflexivity.
    - destruct Hz as [<-|[]]. reflexivity.
    - destruct Hz. }
  apply in_map_iff.
  destruct (slot_entry_cases _ _ _ _ E1) as [(v1 & x1 & I1 & A1 & G1 & ->)|[(I1 & C1 & ->)|(I1 & C1 & ->)]];
  destruct (slot_entry_cases _ _ _ _ E2) as [(v2 & x2 & I2 & A2 & G2 & ->)|[(I2 & C2 & ->)|(I2 & C2 & ->)]];
  try (exfalso; destruct (Touch i Ci Ti) as [Q|[Q _]]; tauto);
  try (exfalso; destruct (Touch j Cj Tj) as [Q|[Q _]]; tauto).
  - eexists ((_, _, _), (_, _, _)). split; [|apply filter_In; split; [apply P; simpl; auto|]]; [reflexivity|].
    cbn. apply andb_true_iff. split.
    + destruct (Touch i Ci Ti) as [Q|[_ (w1 & B1 & V1)]]; [exfalso; exact (K _ I1 Q)|].
      destruct (Touch j Cj Tj) as [Q|[_ (w2 & B2 & V2)]]; [exfalso; exact (K _ I2 Q)|].
      rewrite A1 in B1. injection B1 as <-. rewrite A2 in B2. injection B2 as <-.
      destruct x1 as [z1|y1|o1 l1]; destruct x2 as [z2|y2|o2 l2]; cbn [are_dependent_accesses]; auto.
      * rewrite (expr_of_val _ _ _ e G1) in V1. rewrite (expr_of_val _ _ _ e G2) in V2.
        apply Z.eqb_eq. congruence.
      * destruct (String.eqb y1 "inf"); auto. apply negb_true_iff.
        destruct (is_member_recursive y1 (EOp o2 l2)) eqn:M; auto. exfalso.
        apply expr_of_var in G1. subst y1.
        apply NR. exists v1, v2. split; auto. split; auto. right.
        eapply computed_from_incl; [apply (firstn_incl n)|]. eapply expr_of_op; eauto.
      * destruct (String.eqb y2 "inf"); auto. apply negb_true_iff.
        destruct (is_member_recursive y2 (EOp o1 l1)) eqn:M; auto. exfalso.
        apply expr_of_var in G2. subst y2.
        apply NR. exists v1, v2. split; auto. split; auto. left.
        eapply computed_from_incl; [apply (firstn_incl m)|]. eapply expr_of_op; eauto.
    + unfold generate_dep. apply orb_true_iff. destruct Tw as [Tw|Tw]; [left|right].
      * apply (Wr i _ _ _ Ci E1 Tw (m, x1, get_type_mem_op (c_op i))). simpl; auto.
      * apply (Wr j _ _ _ Cj E2 Tw (n, x2, get_type_mem_op (c_op j))). simpl; auto.
  - eexists ((_, _, _), (_, _, _)). split; [|apply filter_In; split; [apply P; simpl; auto|]]; [reflexivity|].
    cbn. apply andb_true_iff. split; [destruct x1; reflexivity|]. unfold generate_dep. apply orb_true_r.
  - eexists ((_, _, _), (_, _, _)). split; [|apply filter_In; split; [apply P; simpl; auto|]]; [reflexivity|].
    cbn. apply andb_true_iff. split; [destruct x2; reflexivity|]. reflexivity.
  - eexists ((_, _, _), (_, _, _)). split; [|apply filter_In; split; [apply P; simpl; auto|]]; [reflexivity|].
    reflexivity.
Qed.
End Slots.

(** Memory. *)
Lemma overlap_spec a n b m : (0 < n)%Z -> (0 < m)%Z ->
  overlap a n b m = true <-> exists x, (a <= x < a + n)%Z /\ (b <= x < b + m)%Z.
Proof.
  intros Hn Hm. unfold overlap. rewrite orb_true_iff, !andb_true_iff, !Z.leb_le, !Z.ltb_lt. split.
  - intros [[A B]|[A B]]; [exists b; lia | exists a; lia].
  - intros (x & A & B). lia.
Qed.

Lemma overlap_touch a n b m x : (a <= x < a + n)%Z -> (b <= x < b + m)%Z -> overlap a n b m = true.
Proof. intros A B. apply overlap_spec; try lia. exists x; auto. Qed.

(** An entry covers the byte [b]. *)
Definition covers (e : string -> Z) (r : expr * expr) (b : Z) : Prop :=
  match r with
  | (EInt a, EInt n) => (a <= b < a + n)%Z
  | _ => True
  end.

Lemma covers_dependent e r1 r2 b : covers e r1 b -> covers e r2 b -> are_dependent_interval r1 r2 = true.
Proof.
  destruct r1 as [[a|x|o l] [n|y|o' l']]; destruct r2 as [[a2|x2|o2 l2] [n2|y2|o2' l2']]; cbn; auto.
  apply overlap_touch.
Qed.

Lemma range_covers e pre i k r b : range_of pre i k = Ok r ->
  in_range e i (fst k, Arg (snd k)) b -> covers e r b.
Proof.
  unfold range_of. intros H (a & n & (va & A1 & A2) & (vn & N1 & N2) & B). cbn in *.
  apply bind_ok in H as (wa & Ha & H). apply bind_ok in H as (wn & Hn & H).
  unfold arg in *. apply of_option_ok in Ha, Hn. rewrite A1 in Ha. rewrite N1 in Hn.
  injection Ha as <-. injection Hn as <-.
  apply bind_ok in H as (ea & Ea & H). apply bind_ok in H as (en & En & H). injection H as <-.
  destruct ea as [za|y|o l]; cbn; auto. destruct en as [zn|y|o l]; cbn; auto.
  rewrite (expr_of_val _ _ _ e Ea) in A2. rewrite (expr_of_val _ _ _ e En) in N2. congruence.
Qed.

(** Every byte an instruction touches is covered by one of its entries, of the
    right kind, at its position. *)
Lemma mem_entry_covers e pre n i xs b : mem_entry pre n i = Ok xs ->
  (byte_read e i b -> exists r t, In (n, r, t) xs /\ covers e r b)
  /\ (byte_write e i b -> exists r t, In (n, r, t) xs /\ covers e r b /\ is_write t = true).
Proof.
  intros H. unfold mem_entry in H.
  destruct (mem (c_op i) ["mload"; "mstore"; "mstore8"]%string) eqn:M1.
  { apply bind_ok in H as (v & Hv & H). apply bind_ok in H as (ex & He & H). injection H as <-.
    unfold arg in Hv. apply of_option_ok in Hv.
    assert (C : forall c, (c <= 32)%Z -> in_range e i (0, Const c) b -> covers e (ex, EInt 32) b).
    { intros c Hc (a & z & (va & A1 & A2) & Hz & B). cbn in *. rewrite Hv in A1. injection A1 as <-.
      destruct ex as [za|y|o l]; cbn; auto.
      rewrite (expr_of_val _ _ _ e He) in A2. injection A2 as ->. lia. }
    apply mem_In in M1. cbn [In] in M1.
    destruct M1 as [E|[E|[E|[]]]]; unfold byte_read, byte_write; rewrite <- E; cbn; split; intros T.
    - destruct T as (r & [<-|[]] & R). eexists _, _. split; [left; reflexivity|]. apply (C 32%Z); auto. lia.
    - destruct T as [T|(r & [] & R)]. discriminate.
    - destruct T as (r & [] & R).
    - destruct T as [T|(r & [<-|[]] & R)]; [discriminate|]. eexists _, _. split; [left; reflexivity|].
      split; [apply (C 32%Z); auto; lia|reflexivity].
    - destruct T as (r & [] & R).
    - destruct T as [T|(r & [<-|[]] & R)]; [discriminate|]. eexists _, _. split; [left; reflexivity|].
      split; [apply (C 1%Z); auto; lia|reflexivity]. }
  destruct (String.eqb_spec (c_op i) "assignimmutable") as [E|NA].
  { injection H as <-. unfold byte_read, byte_write. rewrite E. cbn. split; intros T.
    - destruct T as (r & [] & _).
    - eexists _, _. split; [left; reflexivity|]. split; [exact I|reflexivity]. }
  assert (RD : byte_read e i b -> exists r, In r (mem_reads (c_op i)) /\ in_range e i r b) by auto.
  assert (WR : byte_write e i b -> exists r, In r (mem_writes (c_op i)) /\ in_range e i r b).
  { intros [Q|Q]; [congruence|auto]. }
  assert (N1 : mem (c_op i) ["mload"]%string = false /\ mem (c_op i) ["mstore"]%string = false
               /\ mem (c_op i) ["mstore8"]%string = false).
  { cbn in M1 |- *. destruct (String.eqb (c_op i) "mload"), (String.eqb (c_op i) "mstore"),
      (String.eqb (c_op i) "mstore8"); cbn in *; auto; discriminate. }
  destruct N1 as (N1 & N2 & N3).
  unfold mem_reads in RD. unfold mem_writes in WR. rewrite N1 in RD. rewrite N2, N3 in WR.
  unfold get_interval in H.
  Ltac usecase op E := apply mem_In in E; cbn [In] in E.
  destruct (mem (c_op i) ["keccak256"; "log0"; "log1"; "log2"; "log3"; "log4"]%string) eqn:M2.
  { apply bind_ok in H as (r & Hr & H). injection H as <-.
    assert (W0 : byte_write e i b -> False).
    { intros T. apply WR in T as (q & Hq & _). apply mem_In in M2. cbn [In] in M2.
      destruct M2 as [Q|[Q|[Q|[Q|[Q|[Q|[]]]]]]]; rewrite <- Q in Hq; cbn in Hq; tauto. }
    split; intros T; [|exfalso; auto].
    apply RD in T as (q & [<-|[]] & R). eexists _, _. split; [left; reflexivity|].
    eapply range_covers; eauto. }
  destruct (mem (c_op i) ["codecopy"; "calldatacopy"; "returndatacopy"]%string) eqn:M3.
  { apply bind_ok in H as (r & Hr & H). injection H as <-.
    apply mem_In in M3. cbn [In] in M3.
    split; intros T.
    - exfalso. apply RD in T as (q & Hq & _).
      destruct M3 as [Q|[Q|[Q|[]]]]; rewrite <- Q in Hq; cbn in Hq; tauto.
    - apply WR in T as (q & Hq & R).
      assert (q = (0, Arg 2) /\ is_write (get_type_mem_op (c_op i)) = true) as [-> W].
      { destruct M3 as [Q|[Q|[Q|[]]]]; rewrite <- Q in *; cbn in Hq; destruct Hq as [<-|[]]; split; reflexivity. }
      eexists _, _. split; [left; reflexivity|]. split; auto. eapply range_covers; eauto. }
  destruct (mem (c_op i) ["extcodecopy"]%string) eqn:M4.
  { apply bind_ok in H as (r & Hr & H). injection H as <-.
    apply mem_In in M4. cbn [In] in M4. destruct M4 as [Q|[]]. rewrite <- Q in *. split; intros T.
    - apply RD in T as (q & [] & _).
    - apply WR in T as (q & [<-|[]] & R). eexists _, _. split; [left; reflexivity|]. split; auto.
      eapply range_covers; eauto. }
  destruct (mem (c_op i) ["create"; "create2"]%string) eqn:M5.
  { apply bind_ok in H as (r & Hr & H). injection H as <-.
    assert (W0 : byte_write e i b -> False).
    { intros T. apply WR in T as (q & Hq & _). apply mem_In in M5. cbn [In] in M5.
      destruct M5 as [Q|[Q|[]]]; rewrite <- Q in Hq; cbn in Hq; tauto. }
    split; intros T; [|exfalso; auto].
    apply RD in T as (q & [<-|[]] & R). eexists _, _. split; [left; reflexivity|].
    eapply range_covers; eauto. }
  destruct (mem (c_op i) ["call"; "callcode"]%string) eqn:M6.
  { apply bind_ok in H as (r1 & Hr1 & H). apply bind_ok in H as (r2 & Hr2 & H). injection H as <-.
    assert (W0 : forall q, (exists r, In r q /\ in_range e i r b) -> q = [(5, Arg 6)] -> covers e r2 b).
    { intros q (r & Hr & R) ->. destruct Hr as [<-|[]]. eapply range_covers; eauto. }
    split; intros T.
    - apply RD in T as (q & [<-|[]] & R). eexists _, _. split; [left; reflexivity|]. eapply range_covers; eauto.
    - apply WR in T. eexists _, _. split; [right; left; reflexivity|]. split; [|reflexivity].
      eapply W0; [exact T|]. apply mem_In in M6. cbn [In] in M6.
      destruct M6 as [Q|[Q|[]]]; rewrite <- Q; reflexivity. }
  destruct (mem (c_op i) ["mcopy"]%string) eqn:M7.
  { apply bind_ok in H as (r1 & Hr1 & H). apply bind_ok in H as (r2 & Hr2 & H). injection H as <-.
    apply mem_In in M7. cbn [In] in M7. destruct M7 as [Q|[]]. rewrite <- Q in *. split; intros T.
    - apply RD in T as (q & [<-|[]] & R). eexists _, _. split; [left; reflexivity|]. eapply range_covers; eauto.
    - apply WR in T as (q & [<-|[]] & R). eexists _, _. split; [right; left; reflexivity|]. split; [|reflexivity].
      eapply range_covers; eauto. }
  destruct (mem (c_op i) ["delegatecall"; "staticcall"]%string) eqn:M8.
  { apply bind_ok in H as (r1 & Hr1 & H). apply bind_ok in H as (r2 & Hr2 & H). injection H as <-.
    assert (W0 : forall q, (exists r, In r q /\ in_range e i r b) -> q = [(4, Arg 5)] -> covers e r2 b).
    { intros q (r & Hr & R) ->. destruct Hr as [<-|[]]. eapply range_covers; eauto. }
    split; intros T.
    - apply RD in T as (q & [<-|[]] & R). eexists _, _. split; [left; reflexivity|]. eapply range_covers; eauto.
    - apply WR in T. eexists _, _. split; [right; left; reflexivity|]. split; [|reflexivity].
      eapply W0; [exact T|]. apply mem_In in M8. cbn [In] in M8.
      destruct M8 as [Q|[Q|[]]]; rewrite <- Q; reflexivity. }
  assert (N4 : mem (c_op i) ["codecopy"; "calldatacopy"; "returndatacopy"; "mcopy"]%string = false).
  { cbn in M3, M7 |- *. rewrite !orb_false_r in *.
    destruct (String.eqb (c_op i) "codecopy"), (String.eqb (c_op i) "calldatacopy"),
      (String.eqb (c_op i) "returndatacopy"), (String.eqb (c_op i) "mcopy"); cbn in *; auto; discriminate. }
  rewrite N4 in WR.
  split; intros T; exfalso; [apply RD in T as (q & [] & _)|apply WR in T as (q & [] & _)].
Qed.

Lemma memory_deps_sound instrs deps : compute_memory_dependences instrs = Ok deps ->
  forall m n i j e, m < n -> nth_error instrs m = Some i -> nth_error instrs n = Some j ->
  mem_conflict e i j -> In (m, n) deps.
Proof.
  unfold compute_memory_dependences. intros H m n i j e Hmn Hm Hn (b & C).
  apply bind_ok in H as (acc & Hacc & H). injection H as <-.
  destruct (collect_pair _ _ _ _ _ _ _ Hacc Hmn Hm Hn) as (xs & ys & E1 & E2 & P).
  destruct (mem_entry_covers e _ _ _ _ b E1) as [R1 W1].
  destruct (mem_entry_covers e _ _ _ _ b E2) as [R2 W2].
  assert (K : exists r1 t1 r2 t2, In (m, r1, t1) xs /\ In (n, r2, t2) ys
     /\ covers e r1 b /\ covers e r2 b /\ generate_dep t1 t2 = true).
  { unfold generate_dep. destruct C as [[A [B|B]]|[A B]].
    - destruct (W1 A) as (r1 & t1 & I1 & C1 & D1). destruct (R2 B) as (r2 & t2 & I2 & C2).
      exists r1, t1, r2, t2. rewrite D1. auto.
    - destruct (W1 A) as (r1 & t1 & I1 & C1 & D1). destruct (W2 B) as (r2 & t2 & I2 & C2 & D2).
      exists r1, t1, r2, t2. rewrite D1. auto.
    - destruct (R1 A) as (r1 & t1 & I1 & C1). destruct (W2 B) as (r2 & t2 & I2 & C2 & D2).
      exists r1, t1, r2, t2. rewrite D2, orb_true_r. auto 6. }
  destruct K as (r1 & t1 & r2 & t2 & I1 & I2 & C1 & C2 & D).
  apply in_map_iff. exists ((m, r1, t1), (n, r2, t2)). split; [reflexivity|].
  apply filter_In. split; [apply P; auto|]. cbn.
  replace (m =? n) with false by (symmetry; apply Nat.eqb_neq; lia).
  rewrite D, (covers_dependent e r1 r2 b); auto.
Qed.

(** Dependencies always go forward. *)
Lemma collect_positions {A} (f : list cins -> nat -> cins -> result (list A)) (pos : A -> nat) l :
  (forall pre i ins xs x, f pre i ins = Ok xs -> In x xs -> pos x = i) ->
  forall pre i acc, collect f pre i l = Ok acc -> forall x, In x acc -> i <= pos x < i + length l.
Proof.
  intros Hf. induction l as [|y l IH]; cbn [collect]; intros pre i acc H x Hx.
  - injection H as <-. destruct Hx.
  - apply bind_ok in H as (xs & H1 & H). apply bind_ok in H as (ys & H2 & H). injection H as <-.
    apply in_app_iff in Hx as [Hx|Hx].
    + rewrite (Hf _ _ _ _ _ H1 Hx). simpl. lia.
    + specialize (IH _ _ _ H2 _ Hx). simpl. lia.
Qed.

Lemma collect_pairs_le {A} (f : list cins -> nat -> cins -> result (list A)) (pos : A -> nat) l :
  (forall pre i ins xs x, f pre i ins = Ok xs -> In x xs -> pos x = i) ->
  forall pre i acc, collect f pre i l = Ok acc -> forall x y, In (x, y) (ordered_pairs acc) -> pos x <= pos y.
Proof.
  intros Hf. induction l as [|z l IH]; cbn [collect]; intros pre i acc H x y Hx.
  - injection H as <-. destruct Hx.
  - apply bind_ok in H as (xs & H1 & H). apply bind_ok in H as (ys & H2 & H). injection H as <-.
    assert (P : forall q, In q xs -> pos q = i) by (intros; eapply Hf; eauto).
    assert (Q : forall q, In q ys -> S i <= pos q).
    { intros q Hq. pose proof (collect_positions f pos l Hf _ _ _ H2 _ Hq). lia. }
    clear H1. induction xs as [|a xs IHx].
    + simpl in Hx. eapply IH; eauto.
    + cbn [app ordered_pairs] in Hx. apply in_app_iff in Hx as [Hx|Hx].
      * apply in_map_iff in Hx as (b & E & Hb). injection E as <- <-. rewrite (P a) by (simpl; auto).
        apply in_app_iff in Hb as [Hb|Hb]; [rewrite (P b); simpl; auto|]. specialize (Q b Hb). lia.
      * apply IHx; auto. intros q Hq. apply P. simpl; auto.
Qed.

(** Transitive reduction. *)
Definition edge (deps : list (nat * nat)) (u v : nat) : Prop := In (u, v) deps.
Definition path (deps : list (nat * nat)) : nat -> nat -> Prop := clos_trans nat (edge deps).
Definition forward (deps : list (nat * nat)) : Prop := forall u v, In (u, v) deps -> u < v.

Lemma edge_mem_In e l : edge_mem e l = true <-> In e l.
Proof.
  unfold edge_mem. rewrite existsb_exists. split.
  - intros ([a b] & H & E). destruct e as [c d]. cbn in E. apply andb_true_iff in E as [E1 E2].
    apply Nat.eqb_eq in E1, E2. subst. exact H.
  - intros H. exists e. split; auto. rewrite !Nat.eqb_refl. reflexivity.
Qed.

Lemma dedup_In e l : In e (dedup l) <-> In e l.
Proof.
  induction l as [|a l IH]; simpl; [tauto|]. destruct (edge_mem a l) eqn:E.
  - apply edge_mem_In in E. rewrite IH. split; [tauto|]. intros [<-|H]; auto.
  - simpl. rewrite IH. tauto.
Qed.

Lemma dedup_NoDup l : NoDup (dedup l).
Proof.
  induction l as [|a l IH]; simpl; [constructor|]. destruct (edge_mem a l) eqn:E; auto.
  constructor; auto. rewrite dedup_In, <- edge_mem_In, E. discriminate.
Qed.

Lemma reach_path deps n : forall u v, reach n deps u v = true -> path deps u v.
Proof.
  induction n as [|n IH]; [discriminate|]. intros u v H. cbn [reach] in H.
  apply existsb_exists in H as ([a b] & Hin & H). cbn in H. apply andb_true_iff in H as [H1 H2].
  apply Nat.eqb_eq in H1. subst a. apply orb_true_iff in H2 as [H2|H2].
  - apply Nat.eqb_eq in H2. subst b. apply t_step. exact Hin.
  - eapply t_trans; [apply t_step; exact Hin|]. apply IH. exact H2.
Qed.

Lemma path_lt deps u v : forward deps -> path deps u v -> u < v.
Proof. intros F H. induction H; [apply F; auto|lia]. Qed.

Lemma simplify_edge deps u v : In (u, v) (simplify_dependences deps) <->
  In (u, v) deps /\ redundant deps (u, v) = false.
Proof. unfold simplify_dependences. rewrite filter_In, dedup_In, negb_true_iff. reflexivity. Qed.

Lemma simplify_path deps : forward deps -> forall u v, path deps u v <-> path (simplify_dependences deps) u v.
Proof.
  intros F. split.
  - intros H. remember (v - u) as d eqn:Hd. revert u v H Hd.
    induction d as [d IH] using lt_wf_ind. intros u v H Hd.
    apply clos_trans_t1n in H. destruct H as [v E|w v E P].
    + destruct (redundant deps (u, v)) eqn:R.
      * unfold redundant in R. apply existsb_exists in R as ([a w] & Hin & R). cbn in R.
        apply andb_true_iff in R as [R1 R2]. apply andb_true_iff in R1 as [R1 R3].
        apply Nat.eqb_eq in R1. subst a. apply reach_path in R2.
        pose proof (F _ _ Hin) as L1. pose proof (path_lt _ _ _ F R2) as L2.
        eapply t_trans; [eapply (IH (w - u)); [lia|apply t_step; exact Hin|reflexivity]|].
        eapply (IH (v - w)); [lia|exact R2|reflexivity].
      * apply t_step. apply simplify_edge. auto.
    + apply clos_t1n_trans in P. pose proof (F _ _ E) as L1. pose proof (path_lt _ _ _ F P) as L2.
      eapply t_trans; [eapply (IH (w - u)); [lia|apply t_step; exact E|reflexivity]|].
      eapply (IH (v - w)); [lia|exact P|reflexivity].
  - intros H. induction H as [a b E|a b c H1 IH1 H2 IH2].
    + apply simplify_edge in E as [E _]. apply t_step; exact E.
    + eapply t_trans; eauto.
Qed.

(** Completeness of [reach], hence minimality. *)
Lemma reach_mono deps n : forall m u v, reach n deps u v = true -> n <= m -> reach m deps u v = true.
Proof.
  induction n as [|n IH]; [discriminate|]. intros m u v H Hm. destruct m as [|m]; [lia|].
  cbn [reach] in *. apply existsb_exists in H as (e & He & H). apply existsb_exists. exists e.
  split; auto. apply andb_true_iff in H as [H1 H2]. rewrite H1. cbn.
  apply orb_true_iff in H2 as [->|H2]; [reflexivity|]. rewrite (IH m) by (auto; lia). apply orb_true_r.
Qed.

(** A path of the graph uses distinct edges, when edges go forward. *)
Lemma path_reach deps : forward deps -> forall u v, path deps u v -> reach (length deps) deps u v = true.
Proof.
  intros F u v H. apply clos_trans_t1n in H.
  assert (K : forall u v, clos_trans_1n nat (edge deps) u v ->
     reach (length (filter (fun e => u <=? fst e) deps)) deps u v = true).
  { clear u v H. intros u v H. induction H as [u v E|u w v E P IH].
    - assert (Hi : In (u, v) (filter (fun e => u <=? fst e) deps)).
      { apply filter_In. split; auto. cbn. apply Nat.leb_refl. }
      destruct (filter _ deps) as [|x l]; [destruct Hi|]. cbn [length reach].
      apply existsb_exists. exists (u, v). split; auto. cbn. rewrite !Nat.eqb_refl. reflexivity.
    - assert (L : S (length (filter (fun e => w <=? fst e) deps)) <= length (filter (fun e => u <=? fst e) deps)).
      { pose proof (F _ _ E) as Huw. unfold edge in E. clear - E Huw.
        assert (M : forall l, length (filter (fun e : nat * nat => w <=? fst e) l) <= length (filter (fun e => u <=? fst e) l)).
        { induction l as [|a l IH]; simpl; [lia|].
          destruct (Nat.leb_spec w (fst a)), (Nat.leb_spec u (fst a)); simpl; lia. }
        induction deps as [|a l IH]; [destruct E|]. simpl. destruct E as [->|E].
        - cbn. destruct (Nat.leb_spec w u), (Nat.leb_spec u u); simpl; try lia. specialize (M l). lia.
        - specialize (IH E). destruct (Nat.leb_spec w (fst a)), (Nat.leb_spec u (fst a)); simpl; lia. }
      eapply reach_mono; [|exact L]. cbn [reach]. apply existsb_exists. exists (u, w). split; auto.
      cbn. rewrite Nat.eqb_refl, IH, orb_true_r. reflexivity. }
  eapply reach_mono; [apply K; exact H|]. clear. induction deps as [|a l IH]; simpl; [lia|].
  destruct (u <=? fst a); simpl; lia.
Qed.

Lemma simplify_minimal deps : forward deps -> forall u v w,
  In (u, v) (simplify_dependences deps) -> path deps u w -> path deps w v -> False.
Proof.
  intros F u v w H P1 P2. apply simplify_edge in H as [E R].
  assert (exists x, In (u, x) deps /\ path deps x v) as (x & Ex & Px).
  { apply clos_trans_t1n in P1. destruct P1 as [w Ew|x w Ex Px]; [exists w; auto|].
    exists x. split; auto. eapply t_trans; [apply clos_t1n_trans; exact Px|exact P2]. }
  unfold redundant in R. apply Bool.not_true_iff_false in R. apply R. apply existsb_exists. exists (u, x).
  split; auto. cbn. rewrite Nat.eqb_refl. cbn.
  pose proof (path_lt _ _ _ F Px). replace (x =? v) with false by (symmetry; apply Nat.eqb_neq; lia).
  cbn. apply path_reach; auto.
Qed.

(** Positions of the computed pairs. *)
Lemma slot_entry_pos loads pre i ins xs x : slot_entry loads pre i ins = Ok xs -> In x xs -> fst (fst x) = i.
Proof.
  unfold slot_entry. destruct (mem _ loads).
  - intros H. apply bind_ok in H as (v & _ & H). apply bind_ok in H as (e & _ & H). injection H as <-.
    intros [<-|[]]. reflexivity.
  - destruct (mem _ call_ops); intros H; injection H as <-; intros Hx; [destruct Hx as [<-|[]]; reflexivity|destruct Hx].
Qed.

Lemma slot_entry_one loads pre i ins xs : slot_entry loads pre i ins = Ok xs -> length xs <= 1.
Proof.
  unfold slot_entry. destruct (mem _ loads).
  - intros H. apply bind_ok in H as (v & _ & H). apply bind_ok in H as (e & _ & H). injection H as <-. auto.
  - destruct (mem _ call_ops); intros H; injection H as <-; auto.
Qed.

Lemma mem_entry_pos pre i ins xs x : mem_entry pre i ins = Ok xs -> In x xs -> fst (fst x) = i.
Proof.
  unfold mem_entry. destruct (mem _ _).
  - intros H. apply bind_ok in H as (v & _ & H). apply bind_ok in H as (e & _ & H). injection H as <-.
    intros [<-|[]]. reflexivity.
  - destruct (String.eqb _ _).
    + intros H; injection H as <-. intros [<-|[]]. reflexivity.
    + destruct (get_interval _) as [[k|[k1 k2]]|].
      * intros H. apply bind_ok in H as (v & _ & H). injection H as <-. intros [<-|[]]. reflexivity.
      * intros H. apply bind_ok in H as (v & _ & H). apply bind_ok in H as (w & _ & H). injection H as <-.
        intros [<-|[<-|[]]]; reflexivity.
      * intros H; injection H as <-. intros [].
Qed.

Lemma collect_pairs_lt {A} (f : list cins -> nat -> cins -> result (list A)) (pos : A -> nat) l :
  (forall pre i ins xs x, f pre i ins = Ok xs -> In x xs -> pos x = i) ->
  (forall pre i ins xs, f pre i ins = Ok xs -> length xs <= 1) ->
  forall pre i acc, collect f pre i l = Ok acc -> forall x y, In (x, y) (ordered_pairs acc) -> pos x < pos y.
Proof.
  intros Hf H1. induction l as [|z l IH]; cbn [collect]; intros pre i acc H x y Hx.
  - injection H as <-. destruct Hx.
  - apply bind_ok in H as (xs & E1 & H). apply bind_ok in H as (ys & H2 & H). injection H as <-.
    pose proof (H1 _ _ _ _ E1) as L. destruct xs as [|a [|b xs]]; [|clear L|simpl in L; lia].
    + simpl in Hx. eapply IH; eauto.
    + cbn [app ordered_pairs] in Hx. apply in_app_iff in Hx as [Hx|Hx]; [|eapply IH; eauto].
      apply in_map_iff in Hx as (b & E & Hb). injection E as <- <-.
      rewrite (Hf _ _ _ _ _ E1 (or_introl eq_refl)).
      pose proof (collect_positions f pos l Hf _ _ _ H2 _ Hb). lia.
Qed.

Lemma in_ordered_pairs {A} (x y : A) l : In (x, y) (ordered_pairs l) -> In x l /\ In y l.
Proof.
  induction l as [|a l IH]; simpl; [tauto|]. intros H. apply in_app_iff in H as [H|H].
  - apply in_map_iff in H as (b & E & Hb). injection E as <- <-. auto.
  - apply IH in H. tauto.
Qed.

Lemma slot_deps_forward loads instrs deps : slot_dependences loads instrs = Ok deps ->
  forall u v, In (u, v) deps -> u < v < length instrs.
Proof.
  unfold slot_dependences. intros H u v Hin. apply bind_ok in H as (acc & Hacc & H). injection H as <-.
  apply in_map_iff in Hin as ([x y] & E & Hin). injection E as <- <-. apply filter_In in Hin as [Hin _].
  split.
  - eapply (collect_pairs_lt (slot_entry loads) (fun x => fst (fst x)));
      [intros; eapply slot_entry_pos; eauto|intros; eapply slot_entry_one; eauto|exact Hacc|exact Hin].
  - apply in_ordered_pairs in Hin as [_ Hy].
    pose proof (collect_positions (slot_entry loads) (fun x => fst (fst x)) instrs
       ltac:(intros; eapply slot_entry_pos; eauto) _ _ _ Hacc _ Hy) as L. cbn in *. lia.
Qed.

Lemma memory_deps_forward instrs deps : compute_memory_dependences instrs = Ok deps ->
  forall u v, In (u, v) deps -> u < v < length instrs.
Proof.
  unfold compute_memory_dependences. intros H u v Hin. apply bind_ok in H as (acc & Hacc & H). injection H as <-.
  apply in_map_iff in Hin as ([x y] & E & Hin). injection E as <- <-. apply filter_In in Hin as [Hin Hc].
  cbn in *. apply andb_true_iff in Hc as [Hc _]. apply andb_true_iff in Hc as [Hc _].
  apply negb_true_iff, Nat.eqb_neq in Hc. split.
  - pose proof (collect_pairs_le mem_entry (fun x => fst (fst x)) instrs
      ltac:(intros; eapply mem_entry_pos; eauto) _ _ _ Hacc _ _ Hin) as L. cbn in L. lia.
  - apply in_ordered_pairs in Hin as [_ Hy].
    pose proof (collect_positions mem_entry (fun x => fst (fst x)) instrs
       ltac:(intros; eapply mem_entry_pos; eauto) _ _ _ Hacc _ Hy) as L. cbn in *. lia.
Qed.

Lemma gas_deps_spec instrs deps : compute_gas_dependences instrs = Ok deps ->
  forall u v, In (u, v) deps <-> u < v /\ exists i j, nth_error instrs u = Some i /\ nth_error instrs v = Some j
    /\ c_op i = "gas"%string /\ c_op j = "gas"%string.
Proof.
  unfold compute_gas_dependences. intros H u v. apply bind_ok in H as (acc & Hacc & H). injection H as <-.
  set (f := fun (_ : list cins) (i : nat) (ins : cins) => Ok (if mem (c_op ins) ["gas"%string] then [i] else [])) in *.
  assert (F1 : forall pre i ins xs x, f pre i ins = Ok xs -> In x xs -> x = i).
  { unfold f. intros pre i ins xs x E Hx. injection E as <-. destruct (_ || _)%bool; [|destruct Hx].
    destruct Hx as [<-|[]]. reflexivity. }
  assert (F2 : forall pre i ins xs, f pre i ins = Ok xs -> length xs <= 1).
  { unfold f. intros pre i ins xs E. injection E as <-. destruct (_ || _)%bool; simpl; lia. }
  assert (F3 : forall l pre i acc x, collect f pre i l = Ok acc -> In x acc ->
     exists k ins, nth_error l k = Some ins /\ x = i + k /\ c_op ins = "gas"%string).
  { clear acc Hacc u v. induction l as [|c l IH]; intros pre i acc x H Hx; cbn [collect] in H; [injection H as <-; destruct Hx|].
    apply bind_ok in H as (xs & E1 & H). apply bind_ok in H as (ys & H2 & H). injection H as <-.
    apply in_app_iff in Hx as [Hx|Hx].
    - exists 0, c. split; [reflexivity|]. rewrite Nat.add_0_r. split; [eapply F1; eauto|].
      unfold f in E1. destruct (mem (c_op c) ["gas"%string]) eqn:M; injection E1 as <-; [|destruct Hx].
      apply mem_In in M as [M|[]]. congruence.
    - destruct (IH _ _ _ _ H2 Hx) as (k & ins & Q1 & Q2 & Q3). exists (S k), ins. split; [exact Q1|]. split; [lia|exact Q3]. }
  split.
  - intros Hin. split; [exact (collect_pairs_lt f (fun x => x) instrs F1 F2 _ _ _ Hacc _ _ Hin)|].
    apply in_ordered_pairs in Hin as [Hu Hv].
    destruct (F3 _ _ _ _ _ Hacc Hu) as (k & i & A1 & A2 & A3). destruct (F3 _ _ _ _ _ Hacc Hv) as (k' & j & B1 & B2 & B3).
    simpl in A2, B2. subst k k'. exists i, j. auto.
  - intros (L & i & j & A & B & Ci & Cj).
    destruct (collect_pair f instrs acc u v i j Hacc L A B) as (xs & ys & E1 & E2 & P).
    unfold f in E1, E2. rewrite Ci in E1. rewrite Cj in E2. simpl in E1, E2. injection E1 as <-. injection E2 as <-.
    apply P; simpl; auto.
Qed.

(** Totality on blocks whose definitions precede their uses. *)
Definition lits_ok (instrs : list cins) : Prop :=
  forall i v, In i instrs -> In v (c_in i) -> startswith "0x" v = true -> py_int16 v <> None.
Definition straight (instrs : list cins) : Prop :=
  (forall m n i j v, nth_error instrs m = Some i -> nth_error instrs n = Some j ->
     In v (c_out i) -> In v (c_in j) -> m < n)
  /\ (forall m n i j v, nth_error instrs m = Some i -> nth_error instrs n = Some j ->
        In v (c_out i) -> In v (c_out j) -> m = n).

Lemma map_result_total {A B} (f : A -> result B) l : (forall x, In x l -> exists y, f x = Ok y) ->
  exists ys, map_result f l = Ok ys.
Proof.
  induction l as [|a l IH]; cbn [map_result]; intros H; [eauto|].
  destruct (H a (or_introl eq_refl)) as (y & ->). cbn.
  destruct IH as (ys & ->); [intros; apply H; simpl; auto|]. cbn. eauto.
Qed.

Lemma filter_singletonish {A} (p : A -> bool) : forall l c cs, filter p l = c :: cs ->
  (forall m n x y, nth_error l m = Some x -> nth_error l n = Some y -> p x = true -> p y = true -> m = n) ->
  cs = [] /\ exists k, nth_error l k = Some c /\ p c = true.
Proof.
  induction l as [|a l IH]; intros c cs F U; [discriminate|]. cbn in F. destruct (p a) eqn:Pa.
  - injection F as <- F. split; [|exists 0; auto]. destruct cs as [|d ds]; auto. exfalso.
    assert (Hd : In d (filter p l)) by (rewrite F; simpl; auto).
    apply filter_In in Hd as [Hd Pd]. apply In_nth_error in Hd as (n & Hn).
    specialize (U 0 (S n) a d eq_refl Hn Pa Pd). discriminate.
  - destruct (IH _ _ F) as (-> & k & Hk & Pk).
    + intros m n x y H1 H2 P1 P2. assert (S m = S n) by (eapply U; eauto). lia.
    + split; auto. exists (S k); auto.
Qed.

Lemma get_expression_total pre : straight pre -> lits_ok pre ->
  forall bound fuel v,
  (forall k i, nth_error pre k = Some i -> In v (c_out i) -> k < bound) ->
  (startswith "0x" v = true -> py_int16 v <> None) ->
  bound < fuel -> exists e, get_expression fuel v pre = Ok e.
Proof.
  intros [S1 S2] L. induction bound as [|bound IH]; intros fuel v D V F; (destruct fuel as [|fuel]; [lia|]);
    cbn [get_expression]; destruct (startswith "0x" v) eqn:X.
  1,3: specialize (V eq_refl); destruct (py_int16 v); [cbn; eauto|tauto].
  - destruct (filter _ pre) as [|c cs] eqn:Fl; [eauto|]. exfalso.
    assert (Hc : In c (filter (fun i => mem v (c_out i)) pre)) by (rewrite Fl; simpl; auto).
    apply filter_In in Hc as [Hc Hm]. apply mem_In in Hm. apply In_nth_error in Hc as (k & Hk).
    specialize (D k c Hk Hm). lia.
  - destruct (filter _ pre) as [|c cs] eqn:Fl; [eauto|].
    destruct (filter_singletonish _ _ _ _ Fl) as (-> & k & Hk & Pk).
    { intros m n x y H1 H2 P1 P2. apply mem_In in P1, P2. eapply S2; eauto. }
    cbn. apply mem_In in Pk. specialize (D k c Hk Pk).
    destruct (map_result_total (fun v => get_expression fuel v pre) (c_in c)) as (ys & ->); [|cbn; eauto].
    intros w Hw. apply IH.
    + intros k' i Hk' Hi. specialize (S1 k' k i c w Hk' Hk Hi Hw). lia.
    + intros X'. eapply L; [eapply nth_error_In; exact Hk|exact Hw|exact X'].
    + lia.
Qed.

Lemma nth_error_firstn {A} (l : list A) : forall n k x, nth_error (firstn n l) k = Some x -> nth_error l k = Some x.
Proof.
  induction l as [|a l IH]; intros [|n] [|k] x H; try discriminate; auto. cbn in *. eauto.
Qed.

Lemma straight_firstn n l : straight l -> straight (firstn n l).
Proof.
  intros [A B]. split; intros; [eapply A|eapply B]; eauto using nth_error_firstn.
Qed.

Lemma expr_of_total n instrs v : straight instrs -> lits_ok instrs ->
  (startswith "0x" v = true -> py_int16 v <> None) -> exists e, expr_of (firstn n instrs) v = Ok e.
Proof.
  intros S L V. unfold expr_of. apply (get_expression_total _ (straight_firstn n _ S)) with (bound := length (firstn n instrs)); auto.
  - intros i w Hi. apply L. eapply firstn_incl; eauto.
  - intros k i Hk _. apply nth_error_Some. congruence.
Qed.

Lemma collect_total {A} (f : list cins -> nat -> cins -> result (list A)) l : forall pre i,
  (forall k ins, nth_error l k = Some ins -> exists xs, f (pre ++ firstn k l) (i + k) ins = Ok xs) ->
  exists acc, collect f pre i l = Ok acc.
Proof.
  induction l as [|x l IH]; intros pre i H; cbn [collect]; [eauto|].
  destruct (H 0 x eq_refl) as (xs & E). cbn in E. rewrite app_nil_r, Nat.add_0_r in E. rewrite E. cbn.
  destruct (IH (pre ++ [x]) (S i)) as (ys & ->); [|cbn; eauto].
  intros k ins Hk. specialize (H (S k) ins Hk). cbn [firstn] in H. rewrite <- app_assoc. cbn.
  replace (S (i + k)) with (i + S k) by lia. exact H.
Qed.

Definition arity_ok (i : cins) : Prop :=
  (In (c_op i) ["sload"; "tload"; "mload"; "sstore"; "tstore"; "mstore"; "mstore8"]%string -> 1 <= length (c_in i))
  /\ (In (c_op i) ["keccak256"; "log0"; "log1"; "log2"; "log3"; "log4"]%string -> 2 <= length (c_in i))
  /\ (In (c_op i) ["codecopy"; "calldatacopy"; "returndatacopy"; "mcopy"; "create"; "create2"]%string -> 3 <= length (c_in i))
  /\ (In (c_op i) ["extcodecopy"]%string -> 4 <= length (c_in i))
  /\ (In (c_op i) ["delegatecall"; "staticcall"]%string -> 6 <= length (c_in i))
  /\ (In (c_op i) ["call"; "callcode"]%string -> 7 <= length (c_in i)).

Lemma arg_total n instrs i k : straight instrs -> lits_ok instrs -> In i instrs -> k < length (c_in i) ->
  exists v e, arg i k = Ok v /\ expr_of (firstn n instrs) v = Ok e.
Proof.
  intros S L Hi Hk. destruct (nth_error (c_in i) k) as [v|] eqn:E; [|apply nth_error_None in E; lia].
  exists v. destruct (expr_of_total n instrs v S L) as (e & He).
  - apply L with i; auto. eapply nth_error_In; eauto.
  - exists e. unfold arg. rewrite E. auto.
Qed.

Lemma range_total n instrs i k : straight instrs -> lits_ok instrs -> In i instrs ->
  fst k < length (c_in i) -> snd k < length (c_in i) -> exists r, range_of (firstn n instrs) i k = Ok r.
Proof.
  intros S L Hi H1 H2. destruct (arg_total n instrs i _ S L Hi H1) as (v & e & A & E).
  destruct (arg_total n instrs i _ S L Hi H2) as (v' & e' & A' & E').
  unfold range_of. rewrite A, A'. cbn [bind]. rewrite E, E'. cbn. eauto.
Qed.

Lemma deps_total instrs : straight instrs -> lits_ok instrs -> (forall i, In i instrs -> arity_ok i) ->
  (exists d, compute_storage_dependences instrs = Ok d)
  /\ (exists d, compute_transient_dependences instrs = Ok d)
  /\ (exists d, compute_memory_dependences instrs = Ok d)
  /\ (exists d, compute_gas_dependences instrs = Ok d).
Proof.
  intros S L Ar.
  assert (Slot : forall loads, incl loads ["sload"; "tload"; "sstore"; "tstore"]%string ->
    exists d, slot_dependences loads instrs = Ok d).
  { intros loads I. unfold slot_dependences.
    destruct (collect_total (slot_entry loads) instrs [] 0) as (acc & ->); [|cbn; eauto].
    intros k ins Hk. cbn [app]. pose proof (nth_error_In _ _ Hk) as Hin. unfold slot_entry.
    destruct (mem (c_op ins) loads) eqn:M.
    - apply mem_In in M. apply I in M. destruct (Ar _ Hin) as [A _].
      destruct (arg_total k instrs ins 0 S L Hin) as (v & e & E1 & E2).
      + apply A. simpl in M |- *. tauto.
      + rewrite E1. cbn [bind]. rewrite E2. cbn. eauto.
    - destruct (mem _ call_ops); eauto. }
  split; [apply Slot; intros x; simpl; tauto|]. split; [apply Slot; intros x; simpl; tauto|]. split.
  - unfold compute_memory_dependences.
    destruct (collect_total mem_entry instrs [] 0) as (acc & ->); [|cbn; eauto].
    intros k ins Hk. cbn [app]. pose proof (nth_error_In _ _ Hk) as Hin.
    destruct (Ar _ Hin) as (A1 & A2 & A3 & A4 & A6 & A7). unfold mem_entry.
    destruct (mem (c_op ins) ["mload"; "mstore"; "mstore8"]%string) eqn:M.
    { apply mem_In in M. destruct (arg_total k instrs ins 0 S L Hin) as (v & e & E1 & E2).
      - apply A1. simpl in M |- *. tauto.
      - rewrite E1. cbn [bind]. rewrite E2. cbn. eauto. }
    destruct (String.eqb _ _); [eauto|]. unfold get_interval.
    repeat match goal with |- context [mem (c_op ins) ?l] =>
      let M := fresh "M" in destruct (mem (c_op ins) l) eqn:M; [apply mem_In in M|clear M] end; eauto.
    + destruct (range_total k instrs ins (0, 1) S L Hin) as (r & ->); cbn; eauto; specialize (A2 M0); lia.
    + assert (3 <= length (c_in ins)) by (apply A3; simpl in M0 |- *; tauto).
      destruct (range_total k instrs ins (0, 2) S L Hin) as (r & ->); cbn; eauto; lia.
    + destruct (range_total k instrs ins (1, 3) S L Hin) as (r & ->); cbn; eauto; specialize (A4 M0); lia.
    + assert (3 <= length (c_in ins)) by (apply A3; simpl in M0 |- *; tauto).
      destruct (range_total k instrs ins (1, 2) S L Hin) as (r & ->); cbn; eauto; lia.
    + specialize (A7 M0).
      destruct (range_total k instrs ins (3, 4) S L Hin) as (r & ->); cbn; try lia.
      destruct (range_total k instrs ins (5, 6) S L Hin) as (r' & ->); cbn; eauto; lia.
    + assert (3 <= length (c_in ins)) by (apply A3; simpl in M0 |- *; tauto).
      destruct (range_total k instrs ins (1, 2) S L Hin) as (r & ->); cbn; try lia.
      destruct (range_total k instrs ins (0, 2) S L Hin) as (r' & ->); cbn; eauto; lia.
    + specialize (A6 M0).
      destruct (range_total k instrs ins (2, 3) S L Hin) as (r & ->); cbn; try lia.
      destruct (range_total k instrs ins (4, 5) S L Hin) as (r' & ->); cbn; eauto; lia.
  - unfold compute_gas_dependences.
    destruct (collect_total (fun _ i ins => Ok (if mem (c_op ins) ["gas"%string] then [i] else [])) instrs [] 0)
      as (acc & ->); cbn; eauto.
Qed.
