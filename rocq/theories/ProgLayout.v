(** Positions of the blocks in the emitted code. *)
From Verif Require Import Base Lexical SymExecModel AsmModel UtilModel UtilProps EmitModel EmitSpec EmitProps LexicalProofs ProgSem.
Open Scope string_scope. Open Scope list_scope.

Definition code_at (code : list asm) (pc : nat) (c : list asm) : Prop := exists pre post, code = pre ++ c ++ post /\ length pre = pc.
Lemma code_at_app code pc c1 c2 : code_at code pc (c1 ++ c2) -> code_at code pc c1 /\ code_at code (pc + length c1) c2.
Proof.
  intros (pre & post & -> & <-). split.
  - exists pre, (c2 ++ post). rewrite <- app_assoc. auto.
  - exists (pre ++ c1), post. rewrite <- !app_assoc, app_length. auto.
Qed.
Lemma code_at_item code pc a c : code_at code pc (a :: c) -> nth_error code pc = Some a.
Proof. intros (pre & post & -> & <-). rewrite nth_error_app2, Nat.sub_diag by lia. reflexivity. Qed.

Fixpoint pos (b : string) (L : list (string * list asm)) : nat :=
  match L with [] => 0 | (x, c) :: L' => if String.eqb x b then 0 else length c + pos b L' end.

Lemma pos_at L b c : NoDup (map fst L) -> In (b, c) L -> code_at (codes L) (pos b L) c.
Proof.
  induction L as [|[x d] L IH]; intros ND H; [destruct H|]. cbn in ND. inversion ND as [|? ? N ND']; subst. cbn [pos]. unfold codes. cbn [map concat snd].
  destruct H as [[= -> ->]|H].
  - rewrite String.eqb_refl. exists [], (concat (map snd L)). auto.
  - destruct (String.eqb_spec x b) as [->|_]; [destruct N; apply in_map_iff; exists (b, c); auto|].
    destruct (IH ND' H) as (pre & post & E & <-). exists (d ++ pre), post. unfold codes in E. rewrite E, <- app_assoc, app_length. auto.
Qed.
Lemma pos_next L b b' c : NoDup (map fst L) -> adjacent b b' (map fst L) -> In (b, c) L -> pos b' L = pos b L + length c.
Proof.
  induction L as [|[x d] L IH]; intros ND (l1 & l2 & E) H; [destruct H|]. cbn in ND, E. inversion ND as [|? ? N ND']; subst. cbn [pos].
  destruct l1 as [|y l1]; cbn in E.
  - injection E as -> E. rewrite String.eqb_refl. destruct H as [[= ->]|H]; [|destruct N; apply in_map_iff; exists (b, c); auto].
    destruct L as [|[y d'] L]; [discriminate E|]. cbn in E. injection E as -> _. cbn [pos]. rewrite String.eqb_refl.
    destruct (String.eqb_spec b b') as [->|_]; [destruct N; left; reflexivity|]. lia.
  - injection E as -> E. assert (y <> b /\ y <> b').
    { rewrite E in N. rewrite in_app_iff in N. simpl in N. split; intros ->; apply N; auto. }
    destruct (String.eqb_spec y b) as [Q|_]; [tauto|]. destruct (String.eqb_spec y b') as [Q|_]; [tauto|].
    rewrite (IH ND'); [lia|exists l1, l2; exact E|]. destruct H as [[= -> _]|H]; [tauto|exact H].
Qed.

Lemma defines_item t a : tag_of_item a = Some t <-> defines t a = true.
Proof.
  unfold tag_of_item, defines. destruct (String.eqb (a_name a) "tag"); [|split; discriminate]. cbn [andb]. destruct (a_value a) as [v|]; [|split; discriminate].
  destruct (py_int v) as [z|]; [|split; discriminate]. rewrite Z.eqb_eq. split; congruence.
Qed.
Lemma find_tag_skip t c1 c2 : definitions t c1 = 0 -> find_tag t (c1 ++ c2) = option_map (fun n => length c1 + n) (find_tag t c2).
Proof.
  induction c1 as [|a c1 IH]; intros H; [cbn; destruct (find_tag t c2); reflexivity|].
  unfold definitions in H. cbn [filter] in H. destruct (defines t a) eqn:D; [discriminate|].
  cbn [app find_tag]. destruct (tag_of_item a) as [z|] eqn:T.
  - destruct (Z.eqb_spec z t) as [->|_]; [apply defines_item in T; congruence|]. rewrite IH by exact H. destruct (find_tag t c2); reflexivity.
  - rewrite IH by exact H. destruct (find_tag t c2); reflexivity.
Qed.

Lemma find_tag_pos t b L c : In (b, c) L -> NoDup (map fst L) ->
  (forall x d, In (x, d) L -> x <> b -> definitions t d = 0) -> find_tag t c = Some 0 -> find_tag t (codes L) = Some (pos b L).
Proof.
  induction L as [|[x d] L IH]; intros H ND D F; [destruct H|]. cbn in ND. inversion ND as [|? ? N ND']; subst. unfold codes. cbn [map concat snd pos].
  destruct (String.eqb_spec x b) as [->|Nx].
  - destruct H as [[= ->]|H]; [|destruct N; apply in_map_iff; exists (b, c); auto]. destruct c as [|a c]; [discriminate F|]. cbn [app find_tag] in F |- *.
    destruct (tag_of_item a) as [z|]; [destruct (z =? t)%Z; [reflexivity|]|]; destruct (find_tag t c); discriminate F.
  - rewrite find_tag_skip by (apply (D x d); [left; reflexivity|exact Nx]). destruct H as [[= -> _]|H]; [tauto|].
    change (concat (map snd L)) with (codes L). rewrite IH; auto. intros y d' Hy. apply D. right. exact Hy.
Qed.

(** The whole object. *)
Record placed_code (fns : list string) (tags : list (string * Z)) (lists : list (list (string * eblock) * string)) (L : list (string * list asm)) : Prop := {
  pl_nodup : NoDup (map fst L);
  pl_from : forall b c, In (b, c) L -> exists bs s, In (bs, s) lists /\ reachable bs s b /\ block_code fns tags bs b c;
  pl_all : forall bs s b, In (bs, s) lists -> reachable bs s b -> exists c, In (b, c) L /\ block_code fns tags bs b c;
  pl_adjacent : forall bs s b c, In (bs, s) lists -> reachable bs s b -> falls bs b c -> adjacent b c (map fst L)
}.

Lemma combine_codes (f : string -> list asm -> Prop) order cs : Forall2 f order cs ->
  map fst (combine order cs) = order /\ map snd (combine order cs) = cs /\ (forall b c, In (b, c) (combine order cs) -> In b order /\ f b c) /\
  (forall b, In b order -> exists c, In (b, c) (combine order cs) /\ f b c).
Proof.
  induction 1 as [|b c order cs Hb F (A1 & A2 & A3 & A4)]; [cbn; repeat split; intros; contradiction|]. cbn [combine map fst snd]. rewrite A1, A2.
  split; [reflexivity|]. split; [reflexivity|]. split.
  - intros x d [[= -> ->]|H]; [simpl; auto|]. destruct (A3 x d H). simpl; auto.
  - intros x [->|H]; [exists c; simpl; auto|]. destruct (A4 x H) as (d & H1 & H2). exists d. simpl; auto.
Qed.

Lemma adjacent_app_l b c l l' : adjacent b c l -> adjacent b c (l' ++ l).
Proof. intros (l1 & l2 & ->). exists (l' ++ l1), l2. rewrite <- app_assoc. reflexivity. Qed.

Lemma NoDup_app_intro {A} (l1 l2 : list A) : NoDup l1 -> NoDup l2 -> (forall x, In x l1 -> ~ In x l2) -> NoDup (l1 ++ l2).
Proof.
  induction 1 as [|x l1 N ND IH]; intros H2 D; [exact H2|]. cbn. constructor.
  - rewrite in_app_iff. intros [Q|Q]; [tauto|]. apply (D x); [left; reflexivity|exact Q].
  - apply IH; auto. intros y Hy. apply D. right. exact Hy.
Qed.
Lemma NoDup_app_elim {A} (l1 l2 : list A) : NoDup (l1 ++ l2) -> NoDup l1 /\ NoDup l2 /\ (forall x, In x l1 -> ~ In x l2).
Proof.
  induction l1 as [|x l1 IH]; cbn; intros H; [repeat split; auto; constructor|]. inversion H as [|? ? N ND]; subst. destruct (IH ND) as (P1 & P2 & P3).
  rewrite in_app_iff in N. split; [constructor; tauto|]. split; [exact P2|]. intros y [<-|Hy]; [tauto|auto].
Qed.

Lemma place_all fns tags lists : forall parts,
  Forall2 (fun l code => exists order, laid_out fns tags (fst l) (snd l) order code) lists parts ->
  NoDup (concat (map (fun l => map fst (fst l)) lists)) ->
  exists L, codes L = concat parts /\ placed_code fns tags lists L /\
    (forall bs s rest, lists = (bs, s) :: rest -> exists L', map fst L = s :: L') /\
    (forall b, In b (map fst L) -> In b (concat (map (fun l => map fst (fst l)) lists))).
Proof.
  induction lists as [|[bs s] lists IH]; intros parts F ND; inversion F as [|? code ? parts' Hl F']; subst.
  - exists []. split; [reflexivity|]. split; [|split; [discriminate|intros b []]]. constructor; cbn; [constructor|intros ? ? []|intros ? ? ? []|intros ? ? ? ? []].
  - cbn [map concat fst] in ND. apply NoDup_app_elim in ND as (ND1 & ND2 & D). destruct (IH parts' F' ND2) as (L & E & P & _ & Sub). cbn [fst snd] in Hl.
    destruct Hl as (order & (rest & Ho) & NDo & Re & (cs & Hc & ->) & Adj).
    destruct (combine_codes _ _ _ Hc) as (A1 & A2 & A3 & A4).
    assert (SubO : forall b, In b order -> In b (map fst bs)).
    { intros b Hb. destruct (A4 b Hb) as (c & _ & (blk & _ & _ & Lb & _)). apply lookup_In_key. congruence. }
    exists (combine order cs ++ L). split; [unfold codes in *; rewrite map_app, concat_app, A2, E; reflexivity|]. split.
    + constructor; rewrite ?map_app, ?A1.
      * apply NoDup_app_intro; [exact NDo|exact (pl_nodup _ _ _ _ P)|]. intros b Hb Q. apply (D b); [auto|]. apply Sub. exact Q.
      * intros b c H. apply in_app_iff in H as [H|H].
        -- destruct (A3 b c H) as [Hb Hc']. exists bs, s. split; [left; reflexivity|]. split; [apply Re; exact Hb|exact Hc'].
        -- destruct (pl_from _ _ _ _ P b c H) as (bs' & s' & H1 & H2). exists bs', s'. split; [right; exact H1|exact H2].
      * intros bs' s' b [[= <- <-]|H] R.
        -- apply Re in R. destruct (A4 b R) as (c & H1 & H2). exists c. split; [apply in_app_iff; left; exact H1|exact H2].
        -- destruct (pl_all _ _ _ _ P bs' s' b H R) as (c & H1 & H2). exists c. split; [apply in_app_iff; right; exact H1|exact H2].
      * intros bs' s' b c [[= <- <-]|H] R Fa; [apply adjacent_app_r, Adj; auto|apply adjacent_app_l; eapply (pl_adjacent _ _ _ _ P); eauto].
    + split.
      * intros bs' s' rest' [= <- <- <-]. rewrite map_app, A1, Ho. exists (rest ++ map fst L). reflexivity.
      * intros b H. rewrite map_app, A1, in_app_iff in H. cbn [map concat fst]. apply in_app_iff. destruct H as [H|H]; [left; auto|right; auto].
Qed.

Lemma placed_tag fns tags lists L : placed_code fns tags lists L ->
  (forall x y z, lookup x tags = Some z -> lookup y tags = Some z -> x = y) -> (forall x z, lookup x tags = Some z -> (0 <= z)%Z) ->
  (forall bs s x, In (bs, s) lists -> reachable bs s x -> no_tag_item fns bs x) ->
  forall bs s b z, In (bs, s) lists -> reachable bs s b -> lookup b tags = Some z -> find_tag z (codes L) = Some (pos b L).
Proof.
  intros P Inj Pos NT bs s b z Hl R Lt. destruct (pl_all _ _ _ _ P bs s b Hl R) as (c & Hc & BC).
  apply find_tag_pos with c; [exact Hc|exact (pl_nodup _ _ _ _ P)| |].
  - intros x d Hx Nx. destruct (pl_from _ _ _ _ P x d Hx) as (bs' & s' & Hl' & R' & BC').
    rewrite (block_definitions fns tags bs' x d z Pos (NT bs' s' x Hl' R') BC'). unfold tagged.
    destruct (lookup x tags) as [z'|] eqn:Lx; [|reflexivity]. destruct (Z.eqb_spec z' z) as [->|_]; [|reflexivity]. destruct (Nx (Inj x b z Lx Lt)).
  - destruct BC as (blk & ids & last & _ & _ & _ & ->). rewrite Lt. cbn [app find_tag].
    unfold tag_of_item. cbn [a_name a_value String.eqb Ascii.eqb Bool.eqb]. rewrite py_int_str_Z by (apply (Pos b); exact Lt). rewrite Z.eqb_refl. reflexivity.
Qed.
