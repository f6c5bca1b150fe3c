(** The invariant of the construction of a block specification. *)
From Verif Require Import Base Lexical SymExecModel AsmModel MachineSpec FootprintSpec LexicalProofs
  CheckerProofs DepsModel SpecModel SpecSem SpecProofs.
Open Scope string_scope. Open Scope list_scope.

Definition fresh (n : nat) : string := ("s" ++ str_nat n)%string.

(** a push of the constant z *)
Definition is_push (i : instr) (z : Z) : Prop :=
  i_inpt i = [] /\ (i_disasm i = "PUSH0" /\ z = 0%Z \/ i_disasm i = "PUSH" /\ i_value i = Some [PInt z]).

Lemma is_push_denote {V Loc LV} (sem : semantics V Loc LV) i z args w :
  is_push i z -> op_denote sem i args w = ([word_of_Z sem z], w).
Proof.
  intros (_ & [[E ->]|[E F]]); unfold op_denote; rewrite E; [reflexivity|]. rewrite F. reflexivity.
Qed.

Definition push_key (v : string) : key := ("PUSH", [v]).
Definition ops5 : list string := ["pushlib"; "push #[$]"; "push [$]"; "pushimmutable"; "pushsize"].

Definition is_fresh (st : bstate) (x : string) : Prop := exists n, n < b_out st /\ x = fresh n.

Record sinv (done : list cins) (rest extra : list string) (st : bstate) : Prop := {
  si_outs : forall x, In x (outputs (b_ui st)) -> (user_name x /\ ~ In x rest) \/ is_fresh st x \/ In x extra;
  si_nodup : NoDup (outputs (b_ui st));
  si_ins : forall i x, In i (b_ui st) -> In x (i_inpt i) -> (user_name x /\ ~ In x rest) \/ is_fresh st x;
  si_defs : defs_before_uses (b_ui st) = true;
  si_ids : forall i, In i (b_ui st) -> exists k, k < idx_get (i_disasm i) st /\ i_id i = id_of (i_disasm i) k;
  si_idnd : NoDup (map i_id (b_ui st));
  si_ok : forall i, In i (b_ui st) -> op_name_ok (i_disasm i) = true /\ push_ok i = true;
  si_map : forall v n, In (push_key v, n) (b_map st) -> exists i z o, nth_error (b_ui st) n = Some i
     /\ is_push i z /\ py_int16 v = Some z /\ i_outpt i = [o]
     /\ (is_fresh st o \/ In o extra \/ exists c, In c done /\ c_op c = "push" /\ c_lit c = Some [v]);
  si_len : forall k n, In (k, n) (b_map st) -> n < length (b_ui st);
  si_keys : forall k n, In (k, n) (b_map st) -> mem (fst k) (map upper ops5) = true ->
     exists c l, In c done /\ mem (c_op c) ops5 = true /\ c_lit c = Some l /\ k = (upper (c_op c), l);
  si_alias : forall x y, In (x, y) (b_alias st) -> x = y \/
     (~ In x (outputs (b_ui st)) /\ forall i, In i (b_ui st) -> ~ In x (i_inpt i));
  si_alias_name : forall x y, In (x, y) (b_alias st) -> is_fresh st x \/ In x extra;
  si_uniq : forall k k' n, In (k, n) (b_map st) -> In (k', n) (b_map st) -> k = k';
  si_extra : forall x, In x extra -> ~ user_name x /\ forall n, x <> fresh n
}.

Lemma fresh_not_user n : ~ user_name (fresh n).
Proof. intros (_ & _ & H). apply (H n). reflexivity. Qed.

Lemma is_fresh_not_user st x : is_fresh st x -> ~ user_name x.
Proof. intros (n & _ & ->). apply fresh_not_user. Qed.

Lemma forallb_notin_app (A B l : list string) :
  forallb (fun x => negb (mem x (A ++ B))) l = forallb (fun x => negb (mem x A)) l && forallb (fun x => negb (mem x B)) l.
Proof.
  induction l as [|x l IH]; simpl; [reflexivity|]. rewrite IH.
  assert (M : mem x (A ++ B) = mem x A || mem x B) by (unfold mem; apply existsb_app).
  rewrite M. destruct (mem x A), (mem x B); simpl; rewrite ?andb_false_r, ?andb_true_r; reflexivity.
Qed.

Lemma defs_before_uses_app a b : defs_before_uses (a ++ b) =
  defs_before_uses a && forallb (fun i => forallb (fun x => negb (mem x (outputs b))) (i_inpt i)) a && defs_before_uses b.
Proof.
  induction a as [|i a IH]; [reflexivity|]. cbn [defs_before_uses app forallb].
  rewrite IH. change (i :: a ++ b) with ((i :: a) ++ b). rewrite outputs_app, forallb_notin_app.
  generalize (forallb (fun x => negb (mem x (outputs (i :: a)))) (i_inpt i)), (forallb (fun x => negb (mem x (outputs b))) (i_inpt i)),
    (defs_before_uses a), (defs_before_uses b), (forallb (fun j => forallb (fun x => negb (mem x (outputs b))) (i_inpt j)) a).
  intros [] [] [] [] []; reflexivity.
Qed.

Lemma nth_error_snoc {A} (l : list A) x n : n < length l -> nth_error (l ++ [x]) n = nth_error l n.
Proof. intros H. apply nth_error_app1. exact H. Qed.

Lemma outputs_snoc U i : outputs (U ++ [i]) = outputs U ++ i_outpt i.
Proof. rewrite outputs_app. unfold outputs. simpl. rewrite app_nil_r. reflexivity. Qed.

(** Appending an instruction. *)
Lemma sinv_append done done' rest rest' extra extra' st st' i k nm out :
  sinv done rest extra st ->
  st' = append st i k (bump nm st) out ->
  nm = i_disasm i -> i_id i = id_of nm (idx_get nm st) ->
  op_name_ok nm = true -> push_ok i = true ->
  NoDup (i_outpt i) -> b_out st <= out ->
  (forall x, In x rest' -> In x rest) ->
  (forall x, In x (i_outpt i) -> (user_name x /\ In x rest /\ ~ In x rest') \/ (exists n, b_out st <= n < out /\ x = fresh n)
      \/ (In x extra' /\ ~ In x extra)) ->
  (forall x, In x (i_inpt i) -> (user_name x /\ ~ In x rest) \/ (is_fresh st x /\ In x (outputs (b_ui st)))) ->
  (forall x, In x extra -> In x extra') ->
  (forall x, In x extra' -> ~ user_name x /\ forall n, x <> fresh n) ->
  (forall c, In c done -> In c done') ->
  (forall v, k = push_key v -> exists z o, is_push i z /\ py_int16 v = Some z /\ i_outpt i = [o] /\
     ((exists n, n < out /\ o = fresh n) \/ In o extra' \/ exists c, In c done' /\ c_op c = "push" /\ c_lit c = Some [v])) ->
  (mem (fst k) (map upper ops5) = true ->
     exists c l, In c done' /\ mem (c_op c) ops5 = true /\ c_lit c = Some l /\ k = (upper (c_op c), l)) ->
  sinv done' rest' extra' st'.
Proof.
  intros [S1 S2 S3 S4 S5 S6 S7 S8 S9 S10 S11 S12 SU S13] -> -> Hid Hn Hp Hnd Hout Hrest Ho Hi He Hx Hd Hk Hk5.
  set (st' := append st i k (bump (i_disasm i) st) out).
  assert (FR : forall x, is_fresh st x -> is_fresh st' x).
  { intros x (n & A & B). exists n. simpl. split; [lia|auto]. }
  assert (Ndis : forall x, In x (outputs (b_ui st)) -> In x (i_outpt i) -> False).
  { intros x H1 H2. destruct (Ho x H2) as [(U & R & R')|[(n & Hn' & En)|(E & E')]];
      destruct (S1 x H1) as [(U' & N)|[F|X]]; auto.
    - eapply is_fresh_not_user; eauto.
    - apply (proj1 (S13 _ X)). exact U.
    - subst x. eapply fresh_not_user; eauto.
    - destruct F as (m & Hm & Em). rewrite En in Em. apply fresh_inj in Em. lia.
    - eapply (proj2 (S13 _ X)); eauto.
    - apply (proj1 (Hx _ E)). exact U'.
    - destruct F as (m & Hm & Em). eapply (proj2 (Hx _ E)); eauto. }
  assert (Nin : forall x, (user_name x /\ ~ In x rest) \/ is_fresh st x -> In x (i_outpt i) -> False).
  { intros x H1 H2. destruct (Ho x H2) as [(U & R & R')|[(n & Hn' & En)|(E & E')]];
      destruct H1 as [(U' & N)|F]; auto.
    - eapply is_fresh_not_user; eauto.
    - subst x. eapply fresh_not_user; eauto.
    - destruct F as (m & Hm & Em). rewrite En in Em. apply fresh_inj in Em. lia.
    - apply (proj1 (Hx _ E)). exact U'.
    - destruct F as (m & Hm & Em). eapply (proj2 (Hx _ E)); eauto. }
  constructor; cbn [b_ui b_map b_idx b_out b_pos b_alias append st'].
  - intros x. rewrite outputs_snoc, in_app_iff. intros [H|H].
    + destruct (S1 x H) as [(U & N)|[F|X]]; [left; split; [exact U|intros Q; apply N; auto]|right; left; auto|right; right; auto].
    + destruct (Ho x H) as [(U & R & R')|[(n & Hn' & ->)|(E & E')]]; [left; auto| |right; right; auto].
      right; left. exists n. simpl. split; [lia|auto].
  - rewrite outputs_snoc. apply NoDup_app_intro; auto.
  - intros j x Hj Hjx. apply in_app_iff in Hj as [Hj|[<-|[]]].
    + destruct (S3 j x Hj Hjx) as [(U & N)|F]; [left; split; [exact U|intros Q; apply N; auto]|right; auto].
    + destruct (Hi x Hjx) as [(U & N)|[F _]]; [left; split; [exact U|intros Q; apply N; auto]|right; auto].
  - rewrite defs_before_uses_app, S4. simpl. rewrite andb_true_r.
    apply andb_true_iff. split.
    + apply forallb_forall. intros j Hj. apply forallb_forall. intros x Hjx. apply negb_true_iff, mem_false.
      unfold outputs. simpl. rewrite app_nil_r. intros Q. exact (Nin x (S3 j x Hj Hjx) Q).
    + apply forallb_forall. intros x Hjx. apply negb_true_iff, mem_false.
      unfold outputs. simpl. rewrite app_nil_r. intros Q. apply (Nin x); [|exact Q].
      destruct (Hi x Hjx) as [Q'|[Q' _]]; auto.
  - intros j Hj. rewrite (idx_get_bump (i_disasm i) _ st st' eq_refl). apply in_app_iff in Hj as [Hj|[<-|[]]].
    + destruct (S5 j Hj) as (q & A & B). exists q. split; [|exact B].
      destruct (String.eqb_spec (i_disasm j) (i_disasm i)) as [E|_]; [rewrite <- E|]; lia.
    + exists (idx_get (i_disasm i) st). rewrite String.eqb_refl. split; [lia|exact Hid].
  - rewrite map_app. simpl. apply NoDup_app_intro; auto.
    + constructor; [intros []|constructor].
    + intros x H1 [<-|[]]. apply in_map_iff in H1 as (j & E & Hj). destruct (S5 j Hj) as (q & A & B).
      rewrite Hid, B in E. apply id_of_inj in E as [E1 E2]. rewrite E1 in A. lia.
  - intros j Hj. apply in_app_iff in Hj as [Hj|[<-|[]]]; auto.
  - intros v n [E|H].
    + injection E as -> <-. destruct (Hk v eq_refl) as (z & o & A & B & C & D). exists i, z, o.
      rewrite nth_error_app2, Nat.sub_diag by lia. simpl. do 4 (split; [assumption || reflexivity|]).
      destruct D as [(n & Hn' & ->)|[D|D]]; auto. left. exists n. auto.
    + destruct (S8 v n H) as (j & z & o & A & B & C & D & E). exists j, z, o.
      rewrite nth_error_snoc by (apply nth_error_Some; congruence). do 4 (split; [assumption|]).
      destruct E as [E|[E|(c & F & G)]]; auto. right; right; exists c; auto.
  - intros k' n. rewrite app_length. simpl. intros [E|H]; [injection E as <- <-; lia|]. apply S9 in H. lia.
  - intros k' n [E|H] M; [injection E as <- <-; auto|].
    destruct (S10 k' n H M) as (c & l & A & B & C & D). exists c, l. auto.
  - intros x y H. destruct (S11 x y H) as [E|[A B]]; auto. right. rewrite outputs_snoc. split.
    + rewrite in_app_iff. intros [Q|Q]; [auto|]. destruct (S12 x y H) as [F|X].
      * destruct (Ho x Q) as [(U & R & R')|[(n & Hn' & ->)|(E & E')]].
        -- eapply is_fresh_not_user; eauto.
        -- destruct F as (m & Hm & Em). apply fresh_inj in Em. lia.
        -- destruct F as (m & Hm & Em). eapply (proj2 (Hx _ E)); eauto.
      * destruct (Ho x Q) as [(U & R & R')|[(n & Hn' & ->)|(E & E')]]; auto.
        -- apply (proj1 (S13 _ X)). exact U.
        -- eapply (proj2 (S13 _ X)). reflexivity.
    + intros j Hj. apply in_app_iff in Hj as [Hj|[<-|[]]]; auto. intros Q.
      destruct (Hi x Q) as [(U & _)|[F Fo]]; auto.
      destruct (S12 x y H) as [F|X]; [eapply is_fresh_not_user; eauto|]. apply (proj1 (S13 _ X)). exact U.
  - intros x y H. destruct (S12 x y H); auto.
  - intros k1 k2 n [E1|H1] [E2|H2].
    + congruence.
    + injection E1 as <- <-. apply S9 in H2. lia.
    + injection E2 as <- <-. apply S9 in H1. lia.
    + eapply SU; eauto.
  - exact Hx.
Qed.

(** Weakening the bookkeeping arguments. *)
Lemma sinv_weaken done done' rest rest' extra st :
  sinv done rest extra st -> (forall c, In c done -> In c done') -> (forall x, In x rest' -> In x rest) ->
  sinv done' rest' extra st.
Proof.
  intros [S1 S2 S3 S4 S5 S6 S7 S8 S9 S10 S11 S12 SU S13] Hd Hr. constructor; auto.
  - intros x H. destruct (S1 x H) as [[A B]|[A|A]]; auto. left. split; [exact A|intros Q; exact (B (Hr _ Q))].
  - intros i x H H'. destruct (S3 i x H H') as [[A B]|A]; auto. left. split; [exact A|intros Q; exact (B (Hr _ Q))].
  - intros v n H. destruct (S8 v n H) as (i & z & o & A & B & C & D & [E|[E|(c & E & F)]]);
      exists i, z, o; do 4 (split; [assumption|]); [left; exact E|right; left; exact E|right; right; exists c; auto].
  - intros k n H M. destruct (S10 k n H M) as (c & l & A & B). exists c, l. auto.
Qed.

Lemma sinv_set_pos done rest extra st k id : sinv done rest extra st -> sinv done rest extra (set_pos k id st).
Proof. intros [S1 S2 S3 S4 S5 S6 S7 S8 S9 S10 S11 S12 SU S13]. constructor; auto. Qed.

Lemma sinv_init done rest : sinv done rest [] init_bstate.
Proof.
  constructor; simpl; try (intros; contradiction); try constructor.
  all: intros; contradiction.
Qed.

(* ---------------------------------------------------------------- *)
(** Pushes. *)
Lemma build_push_shape v idx out p : build_push_spec v idx out = Ok p ->
  exists z, py_int16 v = Some z /\ is_push p z /\ i_outpt p = out /\ i_storage p = false
    /\ i_disasm p = (if (z =? 0)%Z then "PUSH0" else "PUSH") /\ i_id p = id_of (i_disasm p) idx
    /\ ((0 <= z)%Z -> push_ok p = true) /\ i_comm p = false.
Proof.
  unfold build_push_spec. intros H. apply bind_ok in H as (z & Hz & H). apply of_option_ok in Hz.
  injection H as <-. exists z. split; [exact Hz|]. unfold is_push. simpl.
  destruct (Z.eqb_spec z 0) as [->|N]; repeat split; auto. unfold push_ok. simpl. intros Q. apply Z.leb_le. exact Q.
Qed.

Lemma new_push_shape st v out k fresh st' : new_push st v out k fresh = Ok st' ->
  exists p z, py_int16 v = Some z /\ is_push p z /\ i_outpt p = out /\ i_storage p = false
    /\ st' = append st p k (bump (i_disasm p) st) fresh
    /\ i_id p = id_of (i_disasm p) (idx_get (i_disasm p) st)
    /\ i_disasm p = (if (z =? 0)%Z then "PUSH0" else "PUSH")
    /\ ((0 <= z)%Z -> push_ok p = true).
Proof.
  unfold new_push. intros H. apply bind_ok in H as (nm & Hn & H). apply bind_ok in H as (p & Hp & H).
  injection H as <-. unfold push_name in Hn. apply bind_ok in Hn as (z & Hz & Hn). injection Hn as <-.
  apply of_option_ok in Hz. apply build_push_shape in Hp as (z' & Hz' & A & B & S & C & D & E & _).
  assert (z' = z) by congruence. subst z'. exists p, z. rewrite C in *. do 7 (split; [assumption || reflexivity|]). assumption.
Qed.

Lemma push_disasm_ok z : op_name_ok (if (z =? 0)%Z then "PUSH0" else "PUSH") = true.
Proof. destruct (z =? 0)%Z; reflexivity. Qed.

Lemma out0_spec st n o : out0 st n = Ok o -> exists i l, nth_error (b_ui st) n = Some i /\ i_outpt i = o :: l.
Proof.
  unfold out0. intros H. apply bind_ok in H as (i & Hi & H). apply of_option_ok in Hi, H.
  destruct (i_outpt i) as [|a l] eqn:E; [discriminate|]. injection H as ->. exists i, l. auto.
Qed.

(** The variable that stands for an argument. *)
Definition val_of (st : bstate) (v o : string) : Prop :=
  (startswith "0x" v = false /\ o = v) \/
  (startswith "0x" v = true /\ exists n i, In (push_key v, n) (b_map st) /\ nth_error (b_ui st) n = Some i /\ i_outpt i = [o]).

Lemma val_of_append st i k idx out v o : val_of st v o -> val_of (append st i k idx out) v o.
Proof.
  intros [H|(H & n & j & A & B & C)]; [left; exact H|right]. split; [exact H|]. exists n, j.
  cbn [b_map b_ui append]. split; [right; exact A|]. rewrite nth_error_snoc; auto. apply nth_error_Some. congruence.
Qed.

Definition lit_ok (v : string) : Prop := startswith "0x" v = true /\ exists z, py_int16 v = Some z /\ (0 <= z)%Z.

(** What a step of the construction adds: constant pushes at the end. *)
Inductive grows : bstate -> bstate -> Prop :=
| grows_refl st : grows st st
| grows_push st st1 st2 p z k : grows st st1 -> is_push p z -> i_storage p = false ->
    st2 = append st1 p k (bump (i_disasm p) st1) (S (b_out st1)) ->
    i_outpt p = [fresh (b_out st1)] -> grows st st2.

Lemma grows_trans a b c : grows a b -> grows b c -> grows a c.
Proof. intros H1 H2. induction H2; auto. eapply grows_push; [apply IHgrows; exact H1|eassumption..]. Qed.

Lemma grows_val_of a b v o : grows a b -> val_of a v o -> val_of b v o.
Proof. induction 1; auto. subst. intros Q. apply val_of_append. auto. Qed.

Lemma resolve_arg_spec done rest st v st' o :
  sinv done rest [] st -> (lit_ok v \/ user_name v /\ ~ In v rest) ->
  resolve_arg st v = Ok (st', o) ->
  sinv done rest [] st' /\ grows st st' /\ val_of st' v o
  /\ ((user_name o /\ ~ In o rest) \/ (is_fresh st' o /\ In o (outputs (b_ui st')))).
Proof.
  intros S Hv H. unfold resolve_arg in H. destruct (startswith "0x" v) eqn:X.
  - destruct Hv as [(_ & z & Hz & Pz)|((Q & _) & _)]; [|congruence].
    destruct (map_get ("PUSH", [v]) st) as [n|] eqn:M.
    + apply map_get_In in M. apply bind_ok in H as (o' & Ho & H). injection H as <- <-.
      apply out0_spec in Ho as (i & l & E1 & E2).
      destruct (si_map _ _ _ _ S v n M) as (i' & z' & o'' & A & B & C & D & E).
      assert (i' = i) by congruence. subst i'. rewrite D in E2. injection E2 as -> <-.
      assert (Io : In o' (outputs (b_ui st))).
      { unfold outputs. apply in_flat_map. exists i. split; [eapply nth_error_In; eauto|rewrite D; simpl; auto]. }
      split; [exact S|]. split; [constructor|]. split.
      * right. split; [exact X|]. exists n, i. auto.
      * destruct (si_outs _ _ _ _ S o' Io) as [Q|[Q|[]]]; auto.
    + apply bind_ok in H as (st1 & H1 & H). injection H as <- <-.
      apply new_push_shape in H1 as (p & z' & A & B & C & St & D & E & F & G).
      assert (z' = z) by congruence. subst z'.
      assert (S1 : sinv done rest [] st1).
      { eapply (sinv_append done done rest rest [] [] st st1 p); eauto.
        - rewrite F. apply push_disasm_ok.
        - rewrite C. constructor; [intros []|constructor].
        - rewrite C. intros x [<-|[]]. right; left. exists (b_out st). split; [lia|reflexivity].
        - destruct B as [B _]. rewrite B. intros x [].
        - intros v' [= <-]. exists z, (fresh (b_out st)). do 3 (split; [assumption|]). left. exists (b_out st). split; [lia|auto].
        - simpl. discriminate. }
      split; [exact S1|]. split; [eapply grows_push; eauto; constructor|].
      assert (N : nth_error (b_ui st1) (length (b_ui st)) = Some p).
      { subst st1. cbn [b_ui append]. rewrite nth_error_app2, Nat.sub_diag by lia. reflexivity. }
      split.
      * right. split; [exact X|]. exists (length (b_ui st)), p. split; [subst st1; simpl; auto|]. split; auto.
      * right. split; [exists (b_out st); subst st1; simpl; split; [lia|reflexivity]|].
        unfold outputs. apply in_flat_map. exists p. split; [eapply nth_error_In; eauto|]. rewrite C. simpl; auto.
  - injection H as <- <-. split; [exact S|]. split; [constructor|]. split; [left; auto|].
    destruct Hv as [(Q & _)|Q]; [congruence|auto].
Qed.

Lemma grows_out a b x : grows a b -> In x (outputs (b_ui a)) -> In x (outputs (b_ui b)).
Proof. induction 1; auto. subst. intros Q. cbn [b_ui append]. rewrite outputs_snoc. apply in_app_iff. auto. Qed.
Lemma grows_fresh a b x : grows a b -> is_fresh a x -> is_fresh b x.
Proof. induction 1; auto. subst. intros Q. destruct (IHgrows Q) as (n & A & B). exists n. simpl. split; [lia|auto]. Qed.

Lemma resolve_args_spec done rest vs : forall st st' os,
  sinv done rest [] st -> (forall v, In v vs -> lit_ok v \/ user_name v /\ ~ In v rest) ->
  resolve_args st vs = Ok (st', os) ->
  sinv done rest [] st' /\ grows st st' /\ Forall2 (val_of st') vs os
  /\ (forall o, In o os -> (user_name o /\ ~ In o rest) \/ (is_fresh st' o /\ In o (outputs (b_ui st')))).
Proof.
  induction vs as [|v vs IH]; intros st st' os S Hv H; cbn [resolve_args] in H.
  - injection H as <- <-. split; [exact S|]. split; [constructor|]. split; [constructor|intros o []].
  - apply bind_ok in H as ([st1 o] & H1 & H). apply bind_ok in H as ([st2 os'] & H2 & H). injection H as <- <-.
    destruct (resolve_arg_spec done rest st v st1 o S (Hv v (or_introl eq_refl)) H1) as (S1 & G1 & V1 & O1).
    destruct (IH st1 st2 os' S1 (fun x Hx => Hv x (or_intror Hx)) H2) as (S2 & G2 & V2 & O2).
    split; [exact S2|]. split; [eapply grows_trans; eauto|]. split.
    + constructor; [eapply grows_val_of; eauto|exact V2].
    + intros x [<-|Hx]; auto. destruct O1 as [Q|[Q1 Q2]]; auto. right. split; [eapply grows_fresh; eauto|eapply grows_out; eauto].
Qed.

(* ---------------------------------------------------------------- *)
(** Facts about the tables of operations. *)
Lemma opcode_keys_facts k : mem k opcode_keys = true ->
  contains "VERBATIM" k = false /\ startswith "tag" k = false /\ mem k dups_and_swaps = false
  /\ startswith "LITERALASSIGNMENT" k = false /\ (k <> "POP" -> op_name_ok k = true).
Proof.
  intros H. apply mem_In in H.
  assert (A : forallb (fun k => negb (contains "VERBATIM" k) && negb (startswith "tag" k) && negb (mem k dups_and_swaps)
     && negb (startswith "LITERALASSIGNMENT" k) && (String.eqb k "POP" || op_name_ok k)) opcode_keys = true) by (vm_compute; reflexivity).
  rewrite forallb_forall in A. specialize (A k H). rewrite !andb_true_iff, !negb_true_iff, orb_true_iff in A.
  destruct A as ((((A & B) & C) & D) & E). repeat split; auto. intros N. destruct E as [E|E]; auto.
  apply String.eqb_eq in E. contradiction.
Qed.

Lemma upper_app a b : upper (a ++ b)%string = (upper a ++ upper b)%string.
Proof. induction a; simpl; congruence. Qed.

Lemma prefix_app p s : prefix p s = true -> exists r, s = (p ++ r)%string.
Proof.
  revert s; induction p as [|c p IH]; intros s H; [exists s; reflexivity|].
  destruct s as [|d s]; simpl in H; [discriminate|]. destruct (ascii_dec c d) as [->|]; [|discriminate].
  destruct (IH s H) as (r & ->). exists r. reflexivity.
Qed.

Lemma prefix_self p r : prefix p (p ++ r)%string = true.
Proof. induction p as [|c p IH]; simpl; [destruct r; reflexivity|]. destruct (ascii_dec c c); [exact IH|congruence]. Qed.

Lemma prefix_upper p s : prefix p s = true -> prefix (upper p) (upper s) = true.
Proof. intros H. apply prefix_app in H as (r & ->). rewrite upper_app. apply prefix_self. Qed.

(** The instruction built for an operation of the block. *)
Definition op_like (i : instr) (c : cins) : Prop :=
  i_disasm i = upper (c_op c) /\ i_outpt i = c_out c
  /\ i_storage i = mem (lower (upper (c_op c))) memory_storage_instructions
  /\ (forall V Loc LV (sem : semantics V Loc LV) args w, op_denote sem i args w = cfg_denote sem c args w)
  /\ i_comm i = is_commutative (upper (c_op c)).

Definition renamed (n : nat) (o y : string) (i : instr) (U : list instr) : list instr :=
  map (fun j => with_inpt (map (fun x => if String.eqb x o then y else x) (i_inpt j)) j) (set_nth n (with_outpt [y] i) U).

(** What one step of the construction does. *)
Inductive stepped (done rest : list cins) (st : bstate) (k : nat) (c : cins) : bstate -> Prop :=
| step_op st1 i key : grows st st1 -> sinv done (flat_map c_out (c :: rest)) [] st1 -> op_like i c -> Forall2 (val_of st1) (c_in c) (i_inpt i) ->
    stepped done rest st k c (set_pos k (i_id i) (append st1 i key (bump (i_disasm i) st1) (b_out st1)))
| step_lit v x z i key : c_op c = "LiteralAssignment" -> c_in c = [v] -> c_out c = [x] -> startswith "0x" v = true ->
    py_int16 v = Some z -> is_push i z -> i_outpt i = [x] -> i_storage i = false ->
    stepped done rest st k c (set_pos k (i_id i) (append st i key (bump (i_disasm i) st) (b_out st)))
| step_ren n p z o y l : c_op c = "push" -> c_in c = [] -> c_out c = [y] -> c_lit c = Some [l] -> py_int16 l = Some z ->
    nth_error (b_ui st) n = Some p -> is_push p z -> i_outpt p = [o] -> is_fresh st o ->
    stepped done rest st k c (set_alias o y (set_ui (renamed n o y p (b_ui st)) st)).

(** What is known about the current instruction of a block. *)
Record cins_ok (done : list cins) (c : cins) (rest : list cins) : Prop := {
  co_sup : supported c;
  co_nodup : NoDup (flat_map c_out (c :: rest));
  co_outs : forall x, In x (c_out c) -> user_name x;
  co_ins : forall x, In x (c_in c) -> lit_ok x \/ user_name x;
  co_defs : forall x, In x (c_in c) -> ~ In x (flat_map c_out (c :: rest));
  co_push : forall d, In d done -> In (c_op c) push_ops -> c_op d = c_op c -> c_lit d <> c_lit c;
  co_pos : forall l z, c_op c = "push" -> c_lit c = Some [l] -> py_int16 l = Some z -> (0 <= z)%Z
}.

Lemma ssa_cins_ok instrs initial done c rest : ssa_block instrs initial -> instrs = done ++ c :: rest ->
  cins_ok done c rest.
Proof.
  intros [B1 B2 B3 B4 B5 B6 B7 B8] ->.
  assert (I : In c (done ++ c :: rest)) by (apply in_app_iff; simpl; auto).
  constructor; eauto.
  - rewrite flat_map_app in B2. eapply NoDup_app_r; eauto.
  - intros d Hd Hp E F. apply In_nth_error in Hd as (m & Hm).
    refine (B7 d c m (length done) _ _ _ _ _ F).
    + rewrite nth_error_app1; auto. apply nth_error_Some. congruence.
    + rewrite nth_error_app2, Nat.sub_diag by lia. reflexivity.
    + assert (m < length done) by (apply nth_error_Some; congruence). lia.
    + rewrite E. exact Hp.
    + exact E.
  - intros l z H1 H2 H3. eapply B8; eauto. simpl; auto.
Qed.

(** A built instruction never defines the variables of the current one. *)
Lemma lookup_none done rest c st n i :
  sinv done (flat_map c_out (c :: rest)) [] st -> cins_ok done c rest ->
  nth_error (b_ui st) n = Some i -> i_outpt i = c_out c -> i_outpt i = [].
Proof.
  intros S C E F. destruct (i_outpt i) as [|x l] eqn:Q; [reflexivity|exfalso].
  assert (I : In x (outputs (b_ui st))).
  { unfold outputs. apply in_flat_map. exists i. split; [eapply nth_error_In; eauto|rewrite Q; simpl; auto]. }
  assert (I' : In x (c_out c)) by (rewrite <- F; simpl; auto).
  destruct (si_outs _ _ _ _ S x I) as [[U N]|[U|[]]].
  - apply N. simpl. apply in_app_iff. auto.
  - eapply is_fresh_not_user; eauto. eapply co_outs; eauto.
Qed.

Lemma lookup_plain done rest c st k st' r :
  sinv done (flat_map c_out (c :: rest)) [] st -> cins_ok done c rest ->
  startswith "push" (c_op c) = false -> mem (c_op c) opcode_keys = false ->
  lookup st k c = Ok (st', r) -> st' = st /\ r = None.
Proof.
  intros S C P M H. unfold lookup in H. rewrite P in H. unfold memory_operation in H. rewrite M, orb_true_r in H. simpl in H.
  destruct (map_get (upper (c_op c), c_in c) st) as [n|] eqn:G; [|injection H as <- <-; auto].
  destruct (startswith "LiteralAssigment" (c_op c)); [discriminate|].
  apply bind_ok in H as (i & Hi & H). apply of_option_ok in Hi.
  destruct (negb (list_eqb (i_outpt i) (c_out c))) eqn:E.
  - rewrite orb_true_r in H. injection H as <- <-; auto.
  - apply negb_false_iff, list_eqb_eq in E. rewrite (lookup_none done rest c st n i S C Hi E) in H. simpl in H.
    injection H as <- <-; auto.
Qed.

(** Appending the instruction built for an operation. *)
Lemma append_op done rest c st st1 i k key :
  sinv done (flat_map c_out (c :: rest)) [] st -> cins_ok done c rest ->
  sinv done (flat_map c_out (c :: rest)) [] st1 ->
  i_outpt i = c_out c -> op_name_ok (i_disasm i) = true -> push_ok i = true ->
  i_id i = id_of (i_disasm i) (idx_get (i_disasm i) st1) ->
  (forall x, In x (i_inpt i) -> (user_name x /\ ~ In x (flat_map c_out (c :: rest))) \/ (is_fresh st1 x /\ In x (outputs (b_ui st1)))) ->
  (forall v, key = push_key v -> exists z o, is_push i z /\ py_int16 v = Some z /\ i_outpt i = [o] /\
      c_op c = "push" /\ c_lit c = Some [v]) ->
  (mem (fst key) (map upper ops5) = true -> mem (c_op c) ops5 = true /\ exists l, c_lit c = Some l /\ key = (upper (c_op c), l)) ->
  sinv (done ++ [c]) (flat_map c_out rest) [] (set_pos k (i_id i) (append st1 i key (bump (i_disasm i) st1) (b_out st1))).
Proof.
  intros S C S1 Ho Hn Hp Hid Hi Hk Hk5. apply sinv_set_pos.
  assert (Nd := co_nodup _ _ _ C). simpl in Nd.
  eapply (sinv_append done (done ++ [c]) (flat_map c_out (c :: rest)) (flat_map c_out rest) [] [] st1 _ i key); eauto.
  - rewrite Ho. eapply NoDup_app_l; eauto.
  - intros x Hx. simpl. apply in_app_iff. auto.
  - rewrite Ho. intros x Hx. left. split; [eapply co_outs; eauto|]. split; [simpl; apply in_app_iff; auto|].
    intros Q. eapply NoDup_app_disj; eauto.
  - intros d Hd. apply in_app_iff. auto.
  - intros v E. destruct (Hk v E) as (z & o & A & B & D & F & G). exists z, o. do 3 (split; [assumption|]).
    right; right. exists c. split; [apply in_app_iff; simpl; auto|auto].
  - intros M. destruct (Hk5 M) as (A & l & B & D). exists c, l. split; [apply in_app_iff; simpl; auto|auto].
Qed.

(** Renaming the result of a push that was introduced for an argument. *)
Lemma nth_split_at {A} (l : list A) n x : nth_error l n = Some x -> exists a b, l = a ++ x :: b /\ length a = n.
Proof. apply nth_error_split. Qed.

Lemma set_nth_split {A} (a b : list A) x y : set_nth (length a) y (a ++ x :: b) = a ++ y :: b.
Proof. induction a; simpl; congruence. Qed.

Definition ren_in (o y : string) (j : instr) : instr :=
  with_inpt (map (fun x => if String.eqb x o then y else x) (i_inpt j)) j.

Lemma renamed_split n o y i U : nth_error U n = Some i -> exists a b, U = a ++ i :: b /\ length a = n /\
  renamed n o y i U = map (ren_in o y) a ++ ren_in o y (with_outpt [y] i) :: map (ren_in o y) b.
Proof.
  intros H. apply nth_error_split in H as (a & b & -> & <-). exists a, b. split; [reflexivity|]. split; [reflexivity|].
  unfold renamed. rewrite set_nth_split, map_app. reflexivity.
Qed.

Lemma ren_in_id o y j : ~ In o (i_inpt j) -> ren_in o y j = j.
Proof.
  intros H. unfold ren_in, with_inpt. destruct j; simpl in *. f_equal.
  rewrite <- (map_id i_inpt) at 2. apply map_ext_in. intros x Hx. destruct (String.eqb_spec x o) as [->|]; tauto.
Qed.

Lemma ren_in_ren_instr o y j : ~ In o (i_outpt j) -> ren_in o y j = ren_instr o y j.
Proof.
  intros H. unfold ren_in, ren_instr, with_inpt, with_outpt, ren. destruct j; simpl in *. f_equal.
  rewrite <- (map_id i_outpt) at 1. apply map_ext_in. intros x Hx. destruct (String.eqb_spec x o) as [->|]; tauto.
Qed.

Lemma defs_before_uses_spec p : defs_before_uses p = true <->
  forall a i b x, p = a ++ i :: b -> In x (i_inpt i) -> ~ In x (outputs (i :: b)).
Proof.
  induction p as [|j p IH]; simpl.
  - split; [intros _ a i b x E; destruct a; discriminate|reflexivity].
  - rewrite andb_true_iff, IH, forallb_forall. split.
    + intros [H1 H2] [|j' a] i b x E Hx; simpl in E.
      * injection E as <- <-. specialize (H1 x Hx). apply negb_true_iff, mem_false in H1. exact H1.
      * injection E as <- E. eapply H2; eauto.
    + intros H. split.
      * intros x Hx. apply negb_true_iff, mem_false. apply (H [] j p x eq_refl Hx).
      * intros a i b x -> Hx. apply (H (j :: a) i b x eq_refl Hx).
Qed.

Lemma outputs_ren_in o y l : outputs (map (ren_in o y) l) = outputs l.
Proof. unfold outputs. rewrite flat_map_concat_map, map_map, <- flat_map_concat_map. reflexivity. Qed.

Lemma nth_error_renamed n o y i U m j : nth_error U n = Some i -> nth_error (renamed n o y i U) m = Some j ->
  exists j0, nth_error U m = Some j0 /\ i_disasm j = i_disasm j0 /\ i_id j = i_id j0 /\ i_value j = i_value j0
   /\ i_storage j = i_storage j0 /\ i_inpt j = map (fun x => if String.eqb x o then y else x) (i_inpt j0)
   /\ i_outpt j = if (m =? n)%nat then [y] else i_outpt j0.
Proof.
  intros H. unfold renamed. rewrite nth_error_map. intros E.
  assert (L : n < length U) by (apply nth_error_Some; congruence).
  destruct (Nat.eqb_spec m n) as [->|N].
  - assert (Q : nth_error (set_nth n (with_outpt [y] i) U) n = Some (with_outpt [y] i)).
    { clear -L. revert n L. induction U as [|u U IH]; intros [|n] L; simpl in *; try lia; auto. apply IH. lia. }
    rewrite Q in E. injection E as <-. exists i. simpl. auto 10.
  - assert (Q : nth_error (set_nth n (with_outpt [y] i) U) m = nth_error U m).
    { clear -N. revert n m N. induction U as [|u U IH]; intros [|n] [|m] N; simpl in *; try lia; auto. }
    rewrite Q in E. destruct (nth_error U m) as [j0|]; [|discriminate]. injection E as <-. exists j0. simpl. auto 10.
Qed.

Lemma nth_error_renamed_fwd n o y i U m j0 : nth_error U n = Some i -> nth_error U m = Some j0 ->
  exists j, nth_error (renamed n o y i U) m = Some j.
Proof.
  intros H E. destruct (nth_error (renamed n o y i U) m) eqn:Q; eauto.
  apply nth_error_None in Q. unfold renamed in Q. rewrite map_length, set_nth_length in Q.
  assert (m < length U) by (apply nth_error_Some; congruence). lia.
Qed.

Lemma nth_error_skipn' {A} (l : list A) n m : nth_error (skipn n l) m = nth_error l (n + m).
Proof. revert l; induction n as [|n IH]; intros l; [reflexivity|]. destruct l; simpl; [destruct m; reflexivity|apply IH]. Qed.

Lemma sinv_renamed done rest c st n p z o y l :
  sinv done (flat_map c_out (c :: rest)) [] st -> cins_ok done c rest ->
  c_op c = "push" -> c_out c = [y] -> c_lit c = Some [l] -> py_int16 l = Some z -> In (push_key l, n) (b_map st) ->
  nth_error (b_ui st) n = Some p -> is_push p z -> i_outpt p = [o] -> is_fresh st o ->
  sinv (done ++ [c]) (flat_map c_out rest) [] (set_alias o y (set_ui (renamed n o y p (b_ui st)) st)).
Proof.
  intros S C Hop Ho Hl Hz Hmap Hn Hp Hpo Hf.
  assert (S' := S). destruct S' as [S1 S2 S3 S4 S5 S6 S7 S8 S9 S10 S11 S12 SU S13].
  assert (Uy : user_name y) by (eapply co_outs; [exact C|]; rewrite Ho; simpl; auto).
  assert (Ry : In y (flat_map c_out (c :: rest))) by (simpl; rewrite Ho; simpl; auto).
  assert (Ry' : ~ In y (flat_map c_out rest)).
  { pose proof (co_nodup _ _ _ C) as Q. simpl in Q. rewrite Ho in Q. simpl in Q. inversion Q; auto. }
  assert (Noy : o <> y) by (intros ->; eapply is_fresh_not_user; eauto).
  assert (NyO : ~ In y (outputs (b_ui st))).
  { intros Q. destruct (S1 y Q) as [[_ N]|[F|[]]]; [tauto|]. eapply is_fresh_not_user; eauto. }
  assert (NyI : forall i, In i (b_ui st) -> ~ In y (i_inpt i)).
  { intros i Hi Q. destruct (S3 i y Hi Q) as [[_ N]|F]; [tauto|]. eapply is_fresh_not_user; eauto. }
  destruct (renamed_split n o y p (b_ui st) Hn) as (a & b & EU & La & ER).
  assert (OU : outputs (b_ui st) = outputs a ++ o :: outputs b).
  { rewrite EU, outputs_app. unfold outputs at 2. simpl. rewrite Hpo. reflexivity. }
  assert (OR : outputs (renamed n o y p (b_ui st)) = outputs a ++ y :: outputs b).
  { rewrite ER, outputs_app, outputs_ren_in. f_equal. change (ren_in o y (with_outpt [y] p) :: map (ren_in o y) b)
      with ([ren_in o y (with_outpt [y] p)] ++ map (ren_in o y) b). rewrite outputs_app, outputs_ren_in. reflexivity. }
  assert (NoA : ~ In o (outputs a)).
  { rewrite OU in S2. apply NoDup_remove_2 in S2. rewrite in_app_iff in S2. tauto. }
  assert (NoB : ~ In o (outputs b)).
  { rewrite OU in S2. apply NoDup_remove_2 in S2. rewrite in_app_iff in S2. tauto. }
  assert (InR : forall j, In j (renamed n o y p (b_ui st)) -> exists j0, In j0 (b_ui st) /\ i_disasm j = i_disasm j0
     /\ i_id j = i_id j0 /\ i_value j = i_value j0
     /\ i_inpt j = map (fun x => if String.eqb x o then y else x) (i_inpt j0)
     /\ (i_outpt j = i_outpt j0 \/ j0 = p /\ i_outpt j = [y])).
  { intros j Hj. apply In_nth_error in Hj as (m & Hm). destruct (nth_error_renamed _ _ _ _ _ _ _ Hn Hm)
      as (j0 & A & B & D & E & F & G & H). exists j0. split; [eapply nth_error_In; eauto|].
    do 4 (split; [assumption|]). destruct (Nat.eqb_spec m n) as [->|]; auto. right. split; [congruence|auto]. }
  assert (Rren : forall j x, In j (b_ui st) -> In x (map (fun x => if String.eqb x o then y else x) (i_inpt j)) ->
     x = y \/ (In x (i_inpt j) /\ x <> o)).
  { intros j x Hj Hx. apply in_map_iff in Hx as (x0 & <- & Hx0). destruct (String.eqb_spec x0 o); auto. }
  constructor; cbn [b_ui b_map b_idx b_out b_pos b_alias set_ui set_alias].
  - intros x. rewrite OR, in_app_iff. intros H.
    assert (Q : x = y \/ In x (outputs (b_ui st))) by (rewrite OU, in_app_iff; simpl in *; intuition).
    destruct Q as [->|Q]; [left; auto|]. destruct (S1 x Q) as [[U N]|[F|[]]].
    + left. split; [exact U|]. intros R. apply N. simpl. apply in_app_iff. auto.
    + right; left. exact F.
  - rewrite OR. rewrite OU in S2, NyO. apply NoDup_remove in S2 as [Q1 Q2].
    apply NoDup_app_intro; [eapply NoDup_app_l; eauto| |].
    + constructor; [rewrite in_app_iff in NyO; simpl in NyO; tauto|eapply NoDup_app_r; eauto].
    + intros x Hx [<-|Hx']; [rewrite in_app_iff in NyO; tauto|]. eapply NoDup_app_disj; eauto.
  - intros j x Hj Hx. destruct (InR j Hj) as (j0 & I0 & _ & _ & _ & E & _). rewrite E in Hx.
    destruct (Rren j0 x I0 Hx) as [->|[Q _]]; [left; auto|].
    destruct (S3 j0 x I0 Q) as [[U N]|F]; [left|right; exact F]. split; [exact U|].
    intros R. apply N. simpl. apply in_app_iff. auto.
  - apply defs_before_uses_spec. intros a' j b' x E Hx.
    assert (Nx : nth_error (renamed n o y p (b_ui st)) (length a') = Some j)
      by (rewrite E, nth_error_app2, Nat.sub_diag by lia; reflexivity).
    destruct (nth_error_renamed _ _ _ _ _ _ _ Hn Nx) as (j0 & A & _ & _ & _ & _ & B & D).
    rewrite B in Hx. apply nth_error_split in A as (a0 & b0 & EU0 & L0).
    assert (O' : outputs (j :: b') = outputs (skipn (length a') (renamed n o y p (b_ui st)))).
    { rewrite E, skipn_app, skipn_all, Nat.sub_diag. reflexivity. }
    rewrite defs_before_uses_spec in S4.
    assert (SK : forall w, In w (outputs (skipn (length a') (renamed n o y p (b_ui st)))) ->
       w = y \/ In w (outputs (j0 :: b0))).
    { intros w Hw. unfold outputs in Hw. apply in_flat_map in Hw as (u & Hu & Hw).
      apply In_nth_error in Hu as (m & Hm). rewrite nth_error_skipn' in Hm.
      destruct (nth_error_renamed _ _ _ _ _ _ _ Hn Hm) as (u0 & A & _ & _ & _ & _ & _ & D').
      rewrite D' in Hw. destruct (length a' + m =? n)%nat; [simpl in Hw; intuition|]. right.
      rewrite EU0, nth_error_app2 in A by lia. rewrite L0 in A. replace (length a' + m - length a')%nat with m in A by lia.
      unfold outputs. apply in_flat_map. exists u0. split; [eapply nth_error_In; eauto|exact Hw]. }
    assert (J0 : In j0 (b_ui st)) by (rewrite EU0; apply in_app_iff; simpl; auto).
    intros Hw. rewrite O' in Hw. destruct (SK x Hw) as [->|Q].
    + (* y is used by j: then j0 used o, so p comes before j0 *)
      assert (Ho0 : In o (i_inpt j0)).
      { apply in_map_iff in Hx as (x0 & E0 & Hx0). destruct (String.eqb_spec x0 o) as [Q|_].
        - rewrite <- Q. exact Hx0.
        - exfalso. apply (NyI j0 J0). rewrite <- E0. exact Hx0. }
      (* y defined at or after j0's position: position n >= length a' *)
      unfold outputs in Hw. apply in_flat_map in Hw as (u & Hu & Hwu).
      apply In_nth_error in Hu as (m & Hm). rewrite nth_error_skipn' in Hm.
      destruct (nth_error_renamed _ _ _ _ _ _ _ Hn Hm) as (u0 & A & _ & _ & _ & _ & _ & D').
      rewrite D' in Hwu. destruct (Nat.eqb_spec (length a' + m) n) as [En|].
      * apply (S4 a0 j0 b0 o EU0 Ho0). rewrite EU0 in Hn. rewrite <- En, nth_error_app2 in Hn by lia.
        unfold outputs. apply in_flat_map. exists p. split; [eapply nth_error_In; eauto|rewrite Hpo; simpl; auto].
      * apply NyO. unfold outputs. apply in_flat_map. exists u0. split; [eapply nth_error_In; eauto|exact Hwu].
    + destruct (Rren j0 x J0 Hx) as [->|[Q' _]].
      * apply NyO. rewrite EU0, outputs_app. apply in_app_iff. auto.
      * exact (S4 a0 j0 b0 x EU0 Q' Q).
  - intros j Hj. destruct (InR j Hj) as (j0 & I0 & E1 & E2 & _). rewrite E1, E2. apply S5. exact I0.
  - rewrite ER. rewrite EU in S6. rewrite map_app in *. simpl in *. rewrite !map_map. exact S6.
  - intros j Hj. destruct (InR j Hj) as (j0 & I0 & E1 & E2 & E3 & E4 & E5). rewrite E1.
    destruct (S7 j0 I0) as [Q1 Q2]. split; [exact Q1|].
    destruct E5 as [E5|[-> E5]].
    + unfold push_ok in *. rewrite E1, E3, E5, E4.
      destruct (i_inpt j0); simpl; auto; destruct (_ =? _)%string; auto; destruct (_ =? _)%string; auto.
    + destruct Hp as [Hp0 [[Hp1 Hp2]|[Hp1 Hp2]]]; unfold push_ok in *; rewrite E1, E3, E4, Hp0, Hp1; [reflexivity|].
      rewrite Hp1, Hp0, Hp2 in *. exact Q2.
  - intros v m Hm. destruct (S8 v m Hm) as (i & z' & o' & A & B & D & E & F).
    destruct (nth_error_renamed_fwd n o y p (b_ui st) m i Hn A) as (j & Hj).
    destruct (nth_error_renamed _ _ _ _ _ _ _ Hn Hj) as (j0 & A' & E1 & E2 & E3 & _ & E4 & E5).
    assert (j0 = i) by congruence. subst j0. exists j, z'.
    destruct B as [B0 B]. rewrite B0 in E4. simpl in E4.
    destruct (Nat.eqb_spec m n) as [->|N].
    + exists y. split; [exact Hj|]. split; [split; [exact E4|rewrite E1, E3; exact B]|]. split; [exact D|]. split; [exact E5|].
      right; right. assert (v = l \/ v <> l) as [->|Nv] by (destruct (string_dec v l); auto).
      * exists c. split; [apply in_app_iff; simpl; auto|auto].
      * assert (Q : push_key v = push_key l) by (eapply SU; eauto). injection Q as Q. contradiction.
    + exists o'. split; [exact Hj|]. split; [split; [exact E4|rewrite E1, E3; exact B]|]. split; [exact D|]. split; [congruence|].
      destruct F as [F|[[]|(c0 & F1 & F2)]]; [left; exact F|right; right; exists c0; split; [apply in_app_iff; auto|auto]].
  - intros k m H. unfold renamed. rewrite map_length, set_nth_length. eapply S9; eauto.
  - intros k m H M. destruct (S10 k m H M) as (d & l' & A & B). exists d, l'. split; [apply in_app_iff; auto|auto].
  - assert (OK : forall x, x <> y -> ~ In x (outputs (b_ui st)) -> (forall i, In i (b_ui st) -> ~ In x (i_inpt i)) ->
      ~ In x (outputs (renamed n o y p (b_ui st))) /\ forall i, In i (renamed n o y p (b_ui st)) -> ~ In x (i_inpt i)).
    { intros x N A B. split.
      - rewrite OR. rewrite OU in A. rewrite in_app_iff in *. simpl in *. intuition.
      - intros i Hi Q. destruct (InR i Hi) as (j0 & I0 & _ & _ & _ & E & _). rewrite E in Q.
        destruct (Rren j0 x I0 Q) as [->|[Q' _]]; [contradiction|eapply B; eauto]. }
    intros x y' [E|H].
    + injection E as <- <-. right. split.
      * rewrite OR, in_app_iff. simpl. intuition.
      * intros i Hi Q. destruct (InR i Hi) as (j0 & I0 & _ & _ & _ & E & _). rewrite E in Q.
        destruct (Rren j0 o I0 Q) as [->|[_ Q']]; contradiction.
    + destruct (S11 x y' H) as [E|[A B]]; auto. right. apply OK; auto. intros ->.
      destruct (S12 y y' H) as [F|[]]. eapply is_fresh_not_user; eauto.
  - intros x y' [E|H]; [injection E as <- <-; left; exact Hf|]. destruct (S12 x y' H) as [F|[]]. left; exact F.
  - exact SU.
  - intros x [].
Qed.

Lemma build_instr_shape op idx inp out value i : build_instr_spec op idx inp out value = Ok i ->
  i_id i = id_of op idx /\ i_disasm i = op /\ i_inpt i = inp /\ i_outpt i = out
  /\ i_storage i = mem (lower op) memory_storage_instructions /\ i_value i = option_map (map PStr) value
  /\ i_comm i = is_commutative op.
Proof.
  unfold build_instr_spec. destruct (_ || _); [discriminate|]. destruct (negb _); [discriminate|].
  intros [= <-]. simpl. auto 10.
Qed.

Lemma last_append st i k idx out : nth_error (rev (b_ui (append st i k idx out))) 0 = Some i.
Proof. cbn [append b_ui]. rewrite rev_app_distr. reflexivity. Qed.

Lemma supported_cases c : supported c ->
  (c_op c = "LiteralAssignment") \/ (c_op c = "push") \/ (c_op c = "PUSH [tag]") \/ (mem (c_op c) ops5 = true)
  \/ (mem (upper (c_op c)) opcode_keys = true /\ mem (c_op c) opcode_keys = false
      /\ startswith "PUSH" (upper (c_op c)) = false /\ upper (c_op c) <> "POP").
Proof.
  intros [v x ? ? ? ?|l z x ? ? ? ? ? ?|t z ? ? ? ? ?|l ls A ? ? ?|A B C D E F]; auto 10.
  right; right; right; left. apply mem_In. exact A.
Qed.

Lemma op_denote_prim {V Loc LV} (sem : semantics V Loc LV) i args w :
  i_disasm i <> "PUSH0" -> i_disasm i <> "PUSH" -> i_disasm i <> "PUSH [TAG]" ->
  op_denote sem i args w = prim sem (i_disasm i) (imm i) args w.
Proof.
  intros A B C. unfold op_denote. rewrite (proj2 (String.eqb_neq _ _) A), (proj2 (String.eqb_neq _ _) B),
    (proj2 (String.eqb_neq _ _) C). reflexivity.
Qed.

Lemma cfg_denote_prim {V Loc LV} (sem : semantics V Loc LV) c args w :
  c_op c <> "LiteralAssignment" -> c_op c <> "push" -> c_op c <> "PUSH [tag]" ->
  cfg_denote sem c args w = prim sem (upper (c_op c)) (cfg_imm c) args w.
Proof.
  intros A B C. unfold cfg_denote. rewrite (proj2 (String.eqb_neq _ _) A), (proj2 (String.eqb_neq _ _) B),
    (proj2 (String.eqb_neq _ _) C). reflexivity.
Qed.

Lemma step_plain done rest c st k st' :
  sinv done (flat_map c_out (c :: rest)) [] st -> cins_ok done c rest ->
  mem (upper (c_op c)) opcode_keys = true -> mem (c_op c) opcode_keys = false ->
  startswith "PUSH" (upper (c_op c)) = false -> upper (c_op c) <> "POP" ->
  (c_op c = "assignimmutable" -> exists l ls, c_lit c = Some (l :: ls)) ->
  build_step st k c = Ok st' -> sinv (done ++ [c]) (flat_map c_out rest) [] st' /\ stepped done rest st k c st'.
Proof.
  intros S C K1 K2 NP NPop Hai H.
  destruct (opcode_keys_facts _ K1) as (F1 & F2 & F3 & F4 & F5). specialize (F5 NPop).
  assert (Np : startswith "push" (c_op c) = false).
  { apply Bool.not_true_iff_false. intros Q. apply prefix_upper in Q. change (upper "push") with "PUSH" in Q.
    unfold startswith in NP. congruence. }
  assert (Nl : startswith "LiteralAssignment" (c_op c) = false).
  { apply Bool.not_true_iff_false. intros Q. apply prefix_upper in Q. change (upper "LiteralAssignment") with "LITERALASSIGNMENT" in Q.
    unfold startswith in F4. congruence. }
  unfold build_step in H. apply bind_ok in H as ([st0 r] & HL & H).
  apply (lookup_plain done rest c) in HL as [-> ->]; auto. rewrite Nl in H.
  apply bind_ok in H as (st1 & HB & H). apply bind_ok in H as (i & Hi & H). injection H as <-.
  unfold build_op in HB. apply bind_ok in HB as ([st2 inp] & HR & HB). rewrite F1 in HB.
  assert (Ex : exists_opcode (upper (c_op c)) = true) by (unfold exists_opcode; rewrite K1; reflexivity).
  rewrite Ex in HB. apply bind_ok in HB as (i' & HI & HB). rewrite Np in HB.
  cbn [bind] in HB. injection HB as <-. rewrite last_append in Hi. injection Hi as <-.
  assert (Np' : String.eqb (c_op c) "push" = false).
  { apply String.eqb_neq. intros Q. rewrite Q in Np. discriminate. }
  rewrite Np' in HI.
  destruct (resolve_args_spec done (flat_map c_out (c :: rest)) (c_in c) st st2 inp S) as (S2 & G & VA & OA); auto.
  { intros v Hv. destruct (co_ins _ _ _ C v Hv) as [Q|Q]; auto. right. split; [exact Q|]. apply (co_defs _ _ _ C v Hv). }
  assert (L : exists val, build_instr_spec (upper (c_op c)) (idx_get (upper (c_op c)) st2) inp (c_out c) val = Ok i'
     /\ (mem (c_op c) literal_ops = true -> val = c_lit c) /\ (mem (c_op c) literal_ops = false -> val = None)).
  { change ["pushlib"; "push #[$]"; "push [$]"; "pushimmutable"; "assignimmutable"] with literal_ops in HI.
    destruct (mem (c_op c) literal_ops); eexists; (split; [exact HI|]); split; congruence. }
  destruct L as (val & HI' & L1 & L2). apply build_instr_shape in HI' as (E1 & E2 & E3 & E4 & E5 & E6 & E7).
  assert (Nd : forall p, prefix "PUSH" p = true -> i_disasm i' <> p).
  { intros p Hp Q. rewrite E2 in Q. rewrite Q in NP. unfold startswith in NP. congruence. }
  assert (ML : mem (c_op c) literal_ops = true -> c_op c = "assignimmutable").
  { intros M. apply mem_In in M. simpl in M.
    destruct M as [M|[M|[M|[M|[M|[]]]]]]; rewrite <- M in Np; try discriminate. auto. }
  assert (Val : i_value i' = None \/ exists l ls, i_value i' = Some (PStr l :: ls) /\ c_lit c = Some (l :: map (fun p => match p with PStr s => s | PInt _ => "" end) ls) /\ mem (c_op c) literal_ops = true).
  { destruct (mem (c_op c) literal_ops) eqn:M.
    - destruct (Hai (ML eq_refl)) as (l & ls & El). right. exists l, (map PStr ls). rewrite E6, (L1 eq_refl), El. simpl.
      rewrite map_map, map_id. auto.
    - left. rewrite E6, (L2 eq_refl). reflexivity. }
  assert (OL : op_like i' c).
  { split; [exact E2|]. split; [exact E4|]. split; [exact E5|]. split; [|exact E7]. intros V Loc LV sem args w.
    rewrite op_denote_prim by (apply Nd; reflexivity). rewrite cfg_denote_prim.
    - rewrite E2. f_equal. unfold imm, cfg_imm. rewrite E2, E6. destruct (mem (c_op c) literal_ops) eqn:M.
      + rewrite (L1 eq_refl). destruct (c_lit c) as [[|l ls]|]; reflexivity.
      + rewrite (L2 eq_refl). reflexivity.
    - intros Q. rewrite Q in Nl. discriminate.
    - intros Q. rewrite Q in Np. discriminate.
    - intros Q. rewrite Q in NP. discriminate. }
  assert (BE : bump (upper (c_op c)) st2 = bump (i_disasm i') st2) by congruence.
  rewrite BE. split.
  - apply (append_op done rest c st st2 i'); auto.
    + rewrite E2. exact F5.
    + unfold push_ok. rewrite (proj2 (String.eqb_neq _ _) (Nd "PUSH0" eq_refl)), (proj2 (String.eqb_neq _ _) (Nd "PUSH" eq_refl)),
        (proj2 (String.eqb_neq _ _) (Nd "PUSH [TAG]" eq_refl)). destruct Val as [->|(l & ls & -> & _)]; reflexivity.
    + congruence.
    + rewrite E3. exact OA.
    + intros v Q. injection Q as Q _. rewrite Q in NP. discriminate.
    + intros Q. simpl in Q. exfalso.
      assert (W : startswith "PUSH" (upper (c_op c)) = true); [|congruence].
      repeat (apply orb_true_iff in Q as [Q|Q]; [apply String.eqb_eq in Q; rewrite Q; reflexivity|]). discriminate.
  - apply step_op; auto. rewrite E3. exact VA.
Qed.

Lemma step_lit_case done rest c st k st' v x :
  sinv done (flat_map c_out (c :: rest)) [] st -> cins_ok done c rest ->
  c_op c = "LiteralAssignment" -> c_in c = [v] -> c_out c = [x] -> startswith "0x" v = true ->
  build_step st k c = Ok st' -> sinv (done ++ [c]) (flat_map c_out rest) [] st' /\ stepped done rest st k c st'.
Proof.
  intros S C Hop Hi Ho Hv H. unfold build_step in H. apply bind_ok in H as ([st0 r] & HL & H).
  apply (lookup_plain done rest c) in HL as [-> ->]; auto; try (rewrite Hop; reflexivity).
  rewrite Hop in H. change (startswith "LiteralAssignment" "LiteralAssignment") with true in H. cbn [bind] in H.
  rewrite Hi in H. change (nth_error [v] 0) with (Some v) in H. cbn [of_option bind] in H.
  apply bind_ok in H as (st1 & HB & H). apply bind_ok in H as (i & HI & H). injection H as <-.
  apply new_push_shape in HB as (p & z & A & B & D & Sf & -> & F & G & P).
  rewrite last_append in HI. injection HI as <-.
  assert (Z0 : (0 <= z)%Z).
  { destruct (co_ins _ _ _ C v) as [(_ & z' & E & Q)|(Q & _)]; [rewrite Hi; simpl; auto| |].
    - assert (z' = z) by congruence. subst. exact Q.
    - congruence. }
  split.
  - eapply (append_op done rest c st st p k); auto.
    + rewrite G. apply push_disasm_ok.
    + destruct B as [-> _]. intros y [].
    + intros w Q. discriminate.
    + simpl. discriminate.
  - eapply step_lit; eauto. congruence.
Qed.

Lemma step_tag done rest c st k st' t z :
  sinv done (flat_map c_out (c :: rest)) [] st -> cins_ok done c rest ->
  c_op c = "PUSH [tag]" -> c_in c = [] -> c_out c = [t] -> py_int t = Some z -> (0 <= z)%Z ->
  build_step st k c = Ok st' -> sinv (done ++ [c]) (flat_map c_out rest) [] st' /\ stepped done rest st k c st'.
Proof.
  intros S C Hop Hi Ho Ht Hz H. unfold build_step in H. apply bind_ok in H as ([st0 r] & HL & H).
  apply (lookup_plain done rest c) in HL as [-> ->]; auto; try (rewrite Hop; reflexivity).
  rewrite Hop in H. change (startswith "LiteralAssignment" "PUSH [tag]") with false in H. cbv iota in H.
  apply bind_ok in H as (st1 & HB & H). apply bind_ok in H as (i & HI & H). injection H as <-.
  unfold build_op in HB. rewrite Hi in HB. cbn [resolve_args bind] in HB. rewrite Hop in HB.
  change (upper "PUSH [tag]") with "PUSH [TAG]" in HB. change (contains "VERBATIM" "PUSH [TAG]") with false in HB.
  change (exists_opcode "PUSH [TAG]") with true in HB. cbv iota in HB.
  change (mem "PUSH [tag]" ["pushlib"; "push #[$]"; "push [$]"; "pushimmutable"; "assignimmutable"]) with false in HB.
  change (String.eqb "PUSH [tag]" "push") with false in HB. change (startswith "push" "PUSH [tag]") with false in HB. cbv iota in HB.
  apply bind_ok in HB as (i' & HI' & HB). cbn [bind] in HB. injection HB as <-.
  rewrite last_append in HI. injection HI as <-.
  apply build_instr_shape in HI' as (E1 & E2 & E3 & E4 & E5 & E6 & E7).
  assert (OL : op_like i' c).
  { split; [rewrite Hop; exact E2|]. split; [exact E4|]. split; [rewrite Hop; exact E5|].
    split; [|rewrite Hop; exact E7]. intros V Loc LV sem args w. unfold op_denote, cfg_denote. rewrite E2, Hop, E4, Ho. reflexivity. }
  rewrite <- E2. split.
  - apply (append_op done rest c st st i'); auto.
    + rewrite E2. reflexivity.
    + unfold push_ok. rewrite E2. simpl. rewrite E3, E4, Ho, Ht. simpl. apply Z.leb_le. exact Hz.
    + congruence.
    + rewrite E3. intros x [].
    + intros v Q. rewrite E2 in Q. discriminate.
    + rewrite E2. discriminate.
  - apply step_op; auto; [constructor|]. rewrite Hi, E3. constructor.
Qed.

Lemma step_push5 done rest c st k st' l ls :
  sinv done (flat_map c_out (c :: rest)) [] st -> cins_ok done c rest ->
  mem (c_op c) ops5 = true -> c_lit c = Some (l :: ls) -> c_in c = [] ->
  build_step st k c = Ok st' -> sinv (done ++ [c]) (flat_map c_out rest) [] st' /\ stepped done rest st k c st'.
Proof.
  intros S C M Hl Hi H.
  assert (X : exists op, c_op c = op /\ In op ops5) by (exists (c_op c); split; [reflexivity|apply mem_In; exact M]).
  destruct X as (op & Hop & Hin).
  assert (Tab : forall op, In op ops5 -> startswith "push" op = true /\ startswith "LiteralAssignment" op = false
     /\ contains "VERBATIM" (upper op) = false /\ exists_opcode (upper op) = true /\ String.eqb op "push" = false
     /\ op_name_ok (upper op) = true /\ upper op <> "PUSH0" /\ upper op <> "PUSH" /\ upper op <> "PUSH [TAG]"
     /\ op <> "LiteralAssignment" /\ op <> "PUSH [tag]" /\ In op push_ops).
  { intros o Ho. simpl in Ho. repeat (destruct Ho as [<-|Ho]; [vm_compute; intuition discriminate|]). destruct Ho. }
  destruct (Tab op Hin) as (T1 & T2 & T3 & T4 & T5 & T6 & T7 & T8 & T9 & T10 & T11 & T12).
  unfold build_step in H. apply bind_ok in H as ([st0 r] & HL & H).
  unfold lookup in HL. rewrite Hop, T1, Hl in HL. cbn [of_option bind] in HL. injection HL as <- <-.
  assert (MG : map_get (upper op, l :: ls) st = None).
  { destruct (map_get (upper op, l :: ls) st) as [n|] eqn:G; [exfalso|reflexivity]. apply map_get_In in G.
    destruct (si_keys _ _ _ _ S _ _ G) as (d & l' & D1 & D2 & D3 & D4).
    - apply mem_In. simpl fst. apply in_map. exact Hin.
    - injection D4 as D4 D5. eapply (co_push _ _ _ C d D1).
      + rewrite Hop. exact T12.
      + rewrite Hop. apply mem_In in D2. clear -D2 Hin D4. simpl in D2, Hin.
        repeat (destruct D2 as [D2|D2]; [rewrite <- D2 in *; repeat (destruct Hin as [Hin|Hin]; [rewrite <- Hin in *; first [reflexivity|discriminate]|]); destruct Hin|]).
        destruct D2.
      + congruence. }
  rewrite MG in H. rewrite Hop, T2 in H.
  apply bind_ok in H as (st1 & HB & H). apply bind_ok in H as (i & HI & H). injection H as <-.
  unfold build_op in HB. rewrite Hi, Hop in HB. cbn [resolve_args bind] in HB. rewrite T3, T4, T1, T5, Hl in HB. cbn [of_option bind] in HB.
  apply bind_ok in HB as (i' & HI' & HB). injection HB as <-. rewrite last_append in HI. injection HI as <-.
  assert (L : exists val, build_instr_spec (upper op) (idx_get (upper op) st) [] (c_out c) val = Ok i'
     /\ (mem op literal_ops = true -> val = c_lit c) /\ (mem op literal_ops = false -> val = None)).
  { change ["pushlib"; "push #[$]"; "push [$]"; "pushimmutable"; "assignimmutable"] with literal_ops in HI'. rewrite Hl.
    destruct (mem op literal_ops); eexists; (split; [exact HI'|]); split; congruence. }
  destruct L as (val & HI2 & L1 & L2). apply build_instr_shape in HI2 as (E1 & E2 & E3 & E4 & E5 & E6 & E7).
  assert (OL : op_like i' c).
  { split; [rewrite Hop; exact E2|]. split; [exact E4|]. split; [rewrite Hop; exact E5|]. split; [|rewrite Hop; exact E7]. intros V Loc LV sem args w.
    rewrite op_denote_prim by congruence. rewrite cfg_denote_prim by (rewrite Hop; first [assumption|apply String.eqb_neq; exact T5]).
    rewrite E2, Hop. f_equal. unfold imm, cfg_imm. rewrite E2, E6, Hop. destruct (mem op literal_ops) eqn:MM.
    - rewrite (L1 eq_refl), Hl. reflexivity.
    - rewrite (L2 eq_refl). reflexivity. }
  rewrite <- E2. split.
  - apply (append_op done rest c st st i'); auto.
    + rewrite E2. exact T6.
    + unfold push_ok. rewrite E2, (proj2 (String.eqb_neq _ _) T7), (proj2 (String.eqb_neq _ _) T8), (proj2 (String.eqb_neq _ _) T9), E6.
      destruct (mem op literal_ops); [rewrite (L1 eq_refl), Hl|rewrite (L2 eq_refl)]; reflexivity.
    + congruence.
    + rewrite E3. intros x [].
    + intros v Q. apply (f_equal fst) in Q. simpl in Q. congruence.
    + intros _. split; [exact M|]. exists (l :: ls). split; [exact Hl|]. rewrite E2, Hop. reflexivity.
  - apply step_op; auto; [constructor|]. rewrite Hi, E3. constructor.
Qed.

Lemma step_push done rest c st k st' l z x :
  sinv done (flat_map c_out (c :: rest)) [] st -> cins_ok done c rest ->
  c_op c = "push" -> c_in c = [] -> c_out c = [x] -> c_lit c = Some [l] -> py_int16 l = Some z -> z <> 0%Z ->
  build_step st k c = Ok st' -> sinv (done ++ [c]) (flat_map c_out rest) [] st' /\ stepped done rest st k c st'.
Proof.
  intros S C Hop Hi Ho Hl Hz Nz H. unfold build_step in H. apply bind_ok in H as ([st0 r] & HL & H).
  unfold lookup in HL. rewrite Hop, Hl in HL. change (startswith "push" "push") with true in HL. cbn [of_option bind] in HL.
  change (upper "push") with "PUSH" in HL. injection HL as <- <-.
  destruct (map_get ("PUSH", [l]) st) as [n|] eqn:G.
  - apply map_get_In in G. rewrite Hop in H. change (String.eqb "push" "push") with true in H. cbv iota in H.
    apply bind_ok in H as (o & H0 & H). rewrite Ho in H. cbn [nth_error of_option bind] in H.
    apply bind_ok in H as (i & HI & H). apply of_option_ok in HI.
    destruct (si_map _ _ _ _ S l n G) as (i' & z' & o' & A & B & D & E & F).
    assert (i' = i) by congruence. subst i'. assert (z' = z) by congruence. subst z'.
    apply out0_spec in H0 as (i0 & l0 & A0 & E0). assert (i0 = i) by congruence. subst i0.
    rewrite E in E0. injection E0 as -> <-.
    assert (Fr : is_fresh st o).
    { destruct F as [F|[[]|(d & F1 & F2 & F3)]]; [exact F|exfalso].
      eapply (co_push _ _ _ C d F1); [rewrite Hop; simpl; auto|congruence|congruence]. }
    injection H as <-. change (map (fun j => with_inpt (map (fun x0 => if (x0 =? o)%string then x else x0) (i_inpt j)) j)
      (set_nth n (with_outpt [x] i) (b_ui st))) with (renamed n o x i (b_ui st)).
    split; [eapply sinv_renamed; eauto|]. eapply step_ren; eauto.
  - rewrite Hop in H. change (startswith "LiteralAssignment" "push") with false in H. cbv iota in H.
    apply bind_ok in H as (st1 & HB & H). apply bind_ok in H as (i & HI & H). injection H as <-.
    unfold build_op in HB. rewrite Hi in HB. cbn [resolve_args bind] in HB. rewrite Hop, Hl in HB.
    change (upper "push") with "PUSH" in HB. change (contains "VERBATIM" "PUSH") with false in HB.
    change (exists_opcode "PUSH") with true in HB.
    change (mem "push" ["pushlib"; "push #[$]"; "push [$]"; "pushimmutable"; "assignimmutable"]) with false in HB.
    change (String.eqb "push" "push") with true in HB. change (startswith "push" "push") with true in HB.
    cbn [of_option bind nth_error] in HB.
    apply bind_ok in HB as (i' & HI' & HB). injection HB as <-. rewrite last_append in HI. injection HI as <-.
    apply build_push_shape in HI' as (z' & Hz' & B & D & Sf & E & F & P & Cf). assert (z' = z) by congruence. subst z'.
    apply Z.eqb_neq in Nz. rewrite Nz in E.
    assert (OL : op_like i' c).
    { split; [rewrite Hop; exact E|]. split; [exact D|]. split; [rewrite Hop; exact Sf|].
      split; [|rewrite Hop; exact Cf]. intros V Loc LV sem args w. rewrite (is_push_denote sem i' z) by exact B. unfold cfg_denote. rewrite Hop, Hl, Hz. reflexivity. }
    rewrite <- E. split.
    + apply (append_op done rest c st st i'); auto.
      * rewrite E. reflexivity.
      * apply P. eapply co_pos; eauto.
      * congruence.
      * destruct B as [-> _]. intros y [].
      * intros v Q. rewrite E in Q. injection Q as <-. exists z, x. do 2 (split; [assumption|]). split; [congruence|auto].
      * rewrite E. discriminate.
    + apply step_op; auto; [constructor|]. rewrite Hi. destruct B as [-> _]. constructor.
Qed.

Lemma build_step_spec done rest c st k st' :
  sinv done (flat_map c_out (c :: rest)) [] st -> cins_ok done c rest -> build_step st k c = Ok st' ->
  sinv (done ++ [c]) (flat_map c_out rest) [] st' /\ stepped done rest st k c st'.
Proof.
  intros S C H. destruct (co_sup _ _ _ C) as [v x A B D E|l z x A B D E F G|t z A B D E F|l ls A B D E|A B D E E' F].
  - eapply step_lit_case; eauto.
  - eapply step_push; eauto.
  - eapply step_tag; eauto.
  - eapply step_push5; eauto. apply mem_In. exact A.
  - eapply step_plain; eauto.
Qed.
