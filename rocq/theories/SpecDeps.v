(** Where the operations of a block end up in its specification, and the
    dependencies between them. *)
From Coq Require Import Relations.
From Verif Require Import Base Lexical SymExecModel AsmModel MachineSpec FootprintSpec LexicalProofs
  CheckerProofs DepsModel SpecModel SpecSem SpecProofs SpecBuild SpecSound SpecDce.
Open Scope string_scope. Open Scope list_scope.

Definition pushy (c : cins) : Prop := startswith "PUSH" (upper (c_op c)) = true \/ c_op c = "LiteralAssignment".

Definition push1 (i : instr) : Prop := exists z o, is_push i z /\ i_outpt i = [o].

Record placed (done : list cins) (st : bstate) : Prop := {
  pc_from : forall i, In i (b_ui st) -> push1 i
    \/ exists k c, nth_error done k = Some c /\ op_like i c /\ pos_id (b_pos st) k = Some (i_id i)
       /\ Forall2 (val_of st) (c_in c) (i_inpt i) /\ forall v, In v (c_in c) -> lit_ok v \/ user_name v;
  pc_to : forall k id, pos_id (b_pos st) k = Some id -> exists c i, nth_error done k = Some c
    /\ In i (b_ui st) /\ i_id i = id /\ (op_like i c \/ pushy c);
  pc_mono : forall k k' n n' i i', pos_id (b_pos st) k = Some (i_id i) -> pos_id (b_pos st) k' = Some (i_id i') ->
    nth_error (b_ui st) n = Some i -> nth_error (b_ui st) n' = Some i' -> k < k' -> n < n';
  pc_all : forall k c, nth_error done k = Some c -> pushy c \/ exists id, pos_id (b_pos st) k = Some id
}.

Lemma nodup_ids_inj (U : list instr) m n i j : NoDup (map i_id U) ->
  nth_error U m = Some i -> nth_error U n = Some j -> i_id i = i_id j -> m = n.
Proof.
  intros N Hm Hn E. rewrite NoDup_nth_error in N. apply N.
  - rewrite map_length. apply nth_error_Some. congruence.
  - rewrite !nth_error_map, Hm, Hn. simpl. congruence.
Qed.

Lemma pos_id_set k id st k' : pos_id (b_pos (set_pos k id st)) k' = if (k =? k')%nat then Some id else pos_id (b_pos st) k'.
Proof. unfold pos_id. cbn [b_pos set_pos find fst]. destruct (k =? k')%nat; reflexivity. Qed.

Lemma nth_error_snoc_inv {A} (l : list A) x n a : nth_error (l ++ [x]) n = Some a ->
  (n < length l /\ nth_error l n = Some a) \/ (n = length l /\ a = x).
Proof.
  intros H. destruct (lt_dec n (length l)) as [L|L].
  - rewrite nth_error_app1 in H by exact L. auto.
  - rewrite nth_error_app2 in H by lia. destruct (n - length l) as [|q] eqn:E.
    + injection H as <-. right. split; [lia|reflexivity].
    + destruct q; discriminate.
Qed.

Lemma nth_error_app_l {A} (l l' : list A) n a : nth_error l n = Some a -> nth_error (l ++ l') n = Some a.
Proof. intros H. rewrite nth_error_app1; [exact H|]. apply nth_error_Some. congruence. Qed.

Lemma Forall2_impl' {A B} (R S : A -> B -> Prop) l l' : (forall a b, R a b -> S a b) -> Forall2 R l l' -> Forall2 S l l'.
Proof. intros H F. induction F; constructor; auto. Qed.

Lemma placed_push done st i k idx out : placed done st -> NoDup (map i_id (b_ui st ++ [i])) -> push1 i ->
  placed done (append st i k idx out).
Proof.
  intros [F T M A] N P. constructor; cbn [b_ui b_pos append].
  - intros j Hj. apply in_app_iff in Hj as [Hj|[<-|[]]]; [|left; exact P].
    destruct (F j Hj) as [Q|(q & c & Q1 & Q2 & Q3 & Q4 & Q5)]; [left; exact Q|].
    right. exists q, c. do 3 (split; [assumption|]). split; [|exact Q5].
    eapply Forall2_impl'; [|exact Q4]. intros. apply val_of_append. assumption.
  - intros q id Hq. destruct (T q id Hq) as (c & j & Q1 & Q2 & Q3). exists c, j. split; [exact Q1|].
    split; [apply in_app_iff; auto|exact Q3].
  - assert (K : forall q n j, pos_id (b_pos st) q = Some (i_id j) -> nth_error (b_ui st ++ [i]) n = Some j ->
      nth_error (b_ui st) n = Some j).
    { intros q n j Hq Hn. destruct (nth_error_snoc_inv _ _ _ _ Hn) as [[_ Q]|[-> ->]]; [exact Q|exfalso].
      destruct (T q _ Hq) as (c & j & Q1 & Q2 & Q3 & _). apply In_nth_error in Q2 as (m & Hm).
      assert (m < length (b_ui st)) by (apply nth_error_Some; congruence).
      assert (m = length (b_ui st)); [|lia]. eapply nodup_ids_inj; [exact N| |exact Hn|exact Q3].
      rewrite nth_error_app1 by assumption. exact Hm. }
    intros q q' n n' j j' Hq Hq' Hn Hn' L. exact (M q q' n n' j j' Hq Hq' (K _ _ _ Hq Hn) (K _ _ _ Hq' Hn') L).
  - exact A.
Qed.

Lemma placed_op done st c i k idx out : placed done st -> NoDup (map i_id (b_ui st ++ [i])) ->
  ((op_like i c /\ Forall2 (val_of st) (c_in c) (i_inpt i) /\ forall v, In v (c_in c) -> lit_ok v \/ user_name v)
   \/ (push1 i /\ pushy c)) ->
  placed (done ++ [c]) (set_pos (length done) (i_id i) (append st i k idx out)).
Proof.
  intros [F T M A] N P. assert (TL : forall q id, pos_id (b_pos st) q = Some id -> q < length done).
  { intros q id Hq. destruct (T q id Hq) as (d & _ & Q & _). apply nth_error_Some. congruence. }
  assert (New : nth_error (done ++ [c]) (length done) = Some c) by (rewrite nth_error_app2, Nat.sub_diag by lia; reflexivity).
  constructor.
  - intros j Hj. cbn [b_ui append set_pos] in Hj. apply in_app_iff in Hj as [Hj|[<-|[]]].
    + destruct (F j Hj) as [Q|(q & d & Q1 & Q2 & Q3 & Q4 & Q5)]; [left; exact Q|].
      right. exists q, d. split; [apply nth_error_app_l; exact Q1|]. split; [exact Q2|].
      split; [|split; [|exact Q5]].
      * rewrite pos_id_set. destruct (Nat.eqb_spec (length done) q) as [<-|]; [|exact Q3]. apply TL in Q3. lia.
      * eapply Forall2_impl'; [|exact Q4]. intros. apply (val_of_append st i k idx out). assumption.
    + destruct P as [(P1 & P2 & P3)|(P1 & _)]; [|left; exact P1]. right. exists (length done), c.
      split; [exact New|]. split; [exact P1|]. split; [rewrite pos_id_set, Nat.eqb_refl; reflexivity|]. split; [|exact P3].
      eapply Forall2_impl'; [|exact P2]. intros. apply (val_of_append st i k idx out). assumption.
  - intros q id. rewrite pos_id_set. cbn [b_ui append set_pos]. destruct (Nat.eqb_spec (length done) q) as [<-|Nq].
    + intros [= <-]. exists c, i. split; [exact New|]. split; [apply in_app_iff; simpl; auto|]. split; [reflexivity|]. tauto.
    + intros Hq. destruct (T q id Hq) as (d & j & Q1 & Q2 & Q3). exists d, j.
      split; [apply nth_error_app_l; exact Q1|]. split; [apply in_app_iff; auto|exact Q3].
  - assert (K : forall q n j, pos_id (b_pos st) q = Some (i_id j) -> nth_error (b_ui st ++ [i]) n = Some j ->
      nth_error (b_ui st) n = Some j).
    { intros q n j Hq Hn. destruct (nth_error_snoc_inv _ _ _ _ Hn) as [[_ Q]|[-> ->]]; [exact Q|exfalso].
      destruct (T q _ Hq) as (d & j & Q1 & Q2 & Q3 & _). apply In_nth_error in Q2 as (m & Hm).
      assert (m < length (b_ui st)) by (apply nth_error_Some; congruence).
      assert (m = length (b_ui st)); [|lia]. eapply nodup_ids_inj; [exact N| |exact Hn|exact Q3].
      rewrite nth_error_app1 by assumption. exact Hm. }
    intros q q' n n' j j'. rewrite !pos_id_set. cbn [b_ui append set_pos]. intros Hq Hq' Hn Hn' L.
    destruct (Nat.eqb_spec (length done) q) as [<-|Nq].
    + destruct (Nat.eqb_spec (length done) q') as [E|Nq']; [lia|]. apply TL in Hq'. lia.
    + assert (Hm := K _ _ _ Hq Hn). assert (n < length (b_ui st)) by (apply nth_error_Some; congruence).
      destruct (Nat.eqb_spec (length done) q') as [<-|Nq'];
        [|exact (M q q' n n' j j' Hq Hq' Hm (K _ _ _ Hq' Hn') L)].
      assert (n' = length (b_ui st)); [|lia]. apply (nodup_ids_inj _ _ _ j' i N Hn'); [|congruence].
      rewrite nth_error_app2, Nat.sub_diag by lia. reflexivity.
  - intros q d Hq. rewrite pos_id_set. destruct (Nat.eqb_spec (length done) q) as [E|E]; [eauto|].
    apply (A q). destruct (nth_error_snoc_inv _ _ _ _ Hq) as [[_ Q]|[-> _]]; [exact Q|congruence].
Qed.

Lemma grows_ids st st' : grows st st' -> NoDup (map i_id (b_ui st')) -> NoDup (map i_id (b_ui st)).
Proof.
  induction 1 as [|st st1 st2 p z k G IH Hp Hs -> Ho]; auto. cbn [b_ui append]. rewrite map_app. intros N.
  apply IH. eapply NoDup_app_l; eauto.
Qed.

Lemma placed_grows done st st' : grows st st' -> NoDup (map i_id (b_ui st')) -> placed done st -> placed done st'.
Proof.
  induction 1 as [|st st1 st2 p z k G IH Hp Hs -> Ho]; auto. intros N P. cbn [b_ui append] in N.
  apply placed_push; [|exact N|exists z; eauto]. apply IH; [|exact P]. rewrite map_app in N. eapply NoDup_app_l; eauto.
Qed.

(** Renaming of a constant's variable. *)
Lemma val_of_renamed st n p o y v u : NoDup (map i_id (b_ui st)) -> NoDup (outputs (b_ui st)) ->
  nth_error (b_ui st) n = Some p -> i_outpt p = [o] -> is_fresh st o -> lit_ok v \/ user_name v ->
  val_of st v u -> val_of (set_alias o y (set_ui (renamed n o y p (b_ui st)) st)) v (if String.eqb u o then y else u).
Proof.
  intros Ni No Hn Ho Hf Hv [[X ->]|(X & m & j & A & B & C)].
  - left. split; [exact X|]. destruct (String.eqb_spec v o) as [->|]; [|reflexivity]. exfalso.
    destruct Hv as [[Q _]|Q]; [congruence|]. eapply is_fresh_not_user; eauto.
  - right. split; [exact X|]. destruct (nth_error_renamed_fwd n o y p _ m j Hn B) as (j' & Hj').
    exists m, j'. cbn [b_map b_ui set_alias set_ui]. split; [exact A|]. split; [exact Hj'|].
    destruct (nth_error_renamed _ _ _ _ _ _ _ Hn Hj') as (j0 & A' & E1 & E2 & E3 & E4 & E5 & E6).
    assert (j0 = j) by congruence. subst j0. rewrite E6. destruct (Nat.eqb_spec m n) as [->|N].
    + assert (j = p) by congruence. subst j. rewrite Ho in C. injection C as <-. rewrite String.eqb_refl. reflexivity.
    + rewrite C. destruct (String.eqb_spec u o) as [->|]; [|reflexivity]. exfalso. apply N.
      assert (j = p); [|subst j; eapply nodup_ids_inj; eauto].
      eapply NoDup_outputs_unique; [exact No|eapply nth_error_In; eauto|eapply nth_error_In; eauto| |];
        [rewrite C|rewrite Ho]; simpl; auto.
Qed.

Lemma placed_renamed done c st n p z o y : placed done st -> pushy c -> NoDup (map i_id (b_ui st)) -> NoDup (outputs (b_ui st)) ->
  nth_error (b_ui st) n = Some p -> is_push p z -> i_outpt p = [o] -> is_fresh st o ->
  placed (done ++ [c]) (set_alias o y (set_ui (renamed n o y p (b_ui st)) st)).
Proof.
  intros [F T M All] Pc Ni No Hn Hp Ho Hf. constructor.
  - intros j Hj. cbn [b_ui set_alias set_ui] in Hj. apply In_nth_error in Hj as (m & Hm).
    destruct (nth_error_renamed _ _ _ _ _ _ _ Hn Hm) as (j0 & A' & E1 & E2 & E3 & E4 & E5 & E6).
    assert (PP : forall z', is_push j0 z' -> is_push j z').
    { intros z' [Q1 Q2]. split; [rewrite E5, Q1; reflexivity|rewrite E1, E3; exact Q2]. }
    destruct (Nat.eqb_spec m n) as [->|N].
    { assert (j0 = p) by congruence. subst j0. left. exists z, y. auto. }
    destruct (F j0 (nth_error_In _ _ A')) as [(z' & o' & Q & Q')|(q & d & Q1 & (D1 & D2 & D3 & D4 & D5) & Q3 & Q4 & Q5)];
      [left; exists z', o'; split; [auto|congruence]|].
    right. exists q, d. split; [apply nth_error_app_l; exact Q1|]. split; [|split; [|split; [|exact Q5]]].
    + split; [congruence|]. split; [congruence|]. split; [congruence|].
      split; [|rewrite (renamed_comm _ _ _ _ _ _ _ _ Hn Hm A'); exact D5].
      intros V Loc LV sem args w. rewrite <- D4. unfold op_denote, imm. rewrite E1, E3, E6. reflexivity.
    + cbn [b_pos set_alias set_ui]. congruence.
    + rewrite E5. clear -Q4 Q5 Ni No Hn Ho Hf. induction Q4 as [|v u vs us H1 H2 IH]; simpl; constructor.
      * eapply val_of_renamed; eauto. apply Q5. simpl; auto.
      * apply IH. intros w Hw. apply Q5. simpl; auto.
  - intros q id Hq. cbn [b_pos set_alias set_ui] in Hq. destruct (T q id Hq) as (d & j0 & Q1 & Q2 & Q3 & Q4).
    apply In_nth_error in Q2 as (m & Hm). destruct (nth_error_renamed_fwd n o y p _ m j0 Hn Hm) as (j & Hj).
    destruct (nth_error_renamed _ _ _ _ _ _ _ Hn Hj) as (j1 & A' & E1 & E2 & E3 & E4 & E5 & E6).
    assert (j1 = j0) by congruence. subst j1. exists d, j. split; [apply nth_error_app_l; exact Q1|].
    cbn [b_ui set_alias set_ui]. split; [eapply nth_error_In; eauto|]. split; [congruence|].
    destruct Q4 as [(D1 & D2 & D3 & D4 & D5)|Q4]; [|right; exact Q4].
    destruct (Nat.eqb_spec m n) as [->|N].
    + right. left. assert (j0 = p) by congruence. subst j0. rewrite <- D1.
      destruct Hp as [_ [[-> _]|[-> _]]]; reflexivity.
    + left. split; [congruence|]. split; [congruence|]. split; [congruence|].
      split; [|rewrite (renamed_comm _ _ _ _ _ _ _ _ Hn Hj A'); exact D5].
      intros V Loc LV sem args w. rewrite <- D4. unfold op_denote, imm. rewrite E1, E3, E6. reflexivity.
  - intros q q' m m' j j'. cbn [b_ui b_pos set_alias set_ui]. intros Hq Hq' Hm Hm' L.
    destruct (nth_error_renamed _ _ _ _ _ _ _ Hn Hm) as (j0 & A & _ & E & _).
    destruct (nth_error_renamed _ _ _ _ _ _ _ Hn Hm') as (j1 & A' & _ & E' & _).
    rewrite E in Hq. rewrite E' in Hq'. eapply M; [exact Hq|exact Hq'|exact A|exact A'|exact L].
  - intros q d Hq. cbn [b_pos set_alias set_ui].
    destruct (nth_error_snoc_inv _ _ _ _ Hq) as [[_ Q]|[_ ->]]; [exact (All q d Q)|left; exact Pc].
Qed.

Lemma stepped_placed done rest c st st' rest' extra' :
  sinv done (flat_map c_out (c :: rest)) [] st -> cins_ok done c rest ->
  stepped done rest st (length done) c st' -> sinv (done ++ [c]) rest' extra' st' ->
  placed done st -> placed (done ++ [c]) st'.
Proof.
  intros S C H S' P. pose proof (si_idnd _ _ _ _ S') as N.
  destruct H as [st1 i key G S1 L F|v x z i key Hop Hi Ho Hv Hz Hp Hpo Hs
    |n p z o y l Hop Hi Ho Hl Hz Hn Hp Hpo Hf].
  - apply placed_op; [|exact N|].
    + eapply placed_grows; [exact G|apply S1|exact P].
    + left. split; [exact L|]. split; [exact F|]. intros v Hv. apply (co_ins _ _ _ C v Hv).
  - apply placed_op; [exact P|exact N|]. right. split; [exists z, x; auto|]. right. exact Hop.
  - eapply placed_renamed; eauto; try apply S. left. rewrite Hop. reflexivity.
Qed.

Lemma placed_init : placed [] init_bstate.
Proof.
  constructor; simpl; [intros i []|discriminate| |]; [intros k k' n n' i i' H; discriminate|].
  intros k c H. destruct k; discriminate.
Qed.

Lemma build_loop_placed instrs initial : ssa_block instrs initial ->
  forall l done st st', instrs = done ++ l ->
  sinv done (flat_map c_out l) [] st -> build_loop st (length done) l = Ok st' ->
  placed done st -> placed instrs st'.
Proof.
  intros B l. induction l as [|c l IH]; intros done st st' E S H P; cbn [build_loop] in H.
  - injection H as <-. rewrite app_nil_r in E. subst. exact P.
  - apply bind_ok in H as (st1 & H1 & H).
    pose proof (ssa_cins_ok instrs initial done c l B E) as C.
    destruct (build_step_spec done l c st (length done) st1 S C H1) as (S1 & T).
    apply (IH (done ++ [c]) st1 st'); [rewrite <- app_assoc; exact E|exact S1| |].
    + rewrite app_length. simpl. rewrite Nat.add_1_r. exact H.
    + eapply stepped_placed; eauto.
Qed.

(** Every operation that is not a push is in the list. *)
Lemma placed_present done st k c : placed done st -> NoDup (map i_id (b_ui st)) ->
  nth_error done k = Some c -> ~ pushy c ->
  exists i, In i (b_ui st) /\ op_like i c /\ Forall2 (val_of st) (c_in c) (i_inpt i)
    /\ forall v, In v (c_in c) -> lit_ok v \/ user_name v.
Proof.
  intros P N Hk Np. destruct (pc_all _ _ P k c Hk) as [Q|(id & Hid)]; [contradiction|].
  destruct (pc_to _ _ P k id Hid) as (c' & i & Q1 & Q2 & <- & [Q4|Q4]); assert (c' = c) by congruence; subst c'; [|contradiction].
  exists i. split; [exact Q2|]. split; [exact Q4|].
  destruct (pc_from _ _ P i Q2) as [(z & o & [_ Q5] & _)|(k' & d & R1 & R2 & R3 & R4 & R5)].
  - exfalso. apply Np. left. destruct Q4 as (<- & _). destruct Q5 as [[-> _]|[-> _]]; reflexivity.
  - assert (k = k').
    { apply In_nth_error in Q2 as (n & Hn). destruct (lt_eq_lt_dec k k') as [[L|L]|L]; [|exact L|].
      - pose proof (pc_mono _ _ P k k' n n i i Hid R3 Hn Hn L). lia.
      - pose proof (pc_mono _ _ P k' k n n i i R3 Hid Hn Hn L). lia. }
    subst k'. assert (d = c) by congruence. subst d. auto.
Qed.

(** The constants of the target. *)
Lemma add_entry_placed done extra st out v st' rest' extra' :
  sinv done [] extra st -> lit_ok v -> add_entry st (out, v) = Ok st' -> sinv done rest' extra' st' ->
  placed done st -> placed done st'.
Proof.
  intros S (Hv & z & Hz & Pz) H S' P. unfold add_entry in H. rewrite Hv in H.
  destruct (map_get ("PUSH", [v]) st) as [n|].
  - apply bind_ok in H as (o & Ho & H). injection H as <-. destruct P as [F T M A]. constructor; auto.
  - apply bind_ok in H as (st1 & H1 & H). injection H as <-.
    apply new_push_shape in H1 as (p & z' & A & Bp & C & St & D & E & _). subst st1.
    pose proof (si_idnd _ _ _ _ S') as N. cbn [b_ui set_alias append] in N.
    destruct (placed_push done st p ("PUSH", [v]) (bump (i_disasm p) st) (b_out st) P N
      (ex_intro _ z' (ex_intro _ out (conj Bp C)))) as [F T M A'].
    constructor; auto.
Qed.

Lemma add_entries_placed done : forall ps extra st st',
  sinv done [] extra st -> NoDup (map fst ps) -> (forall p, In p ps -> special (fst p) /\ lit_ok (snd p) /\ ~ In (fst p) extra) ->
  for_each add_entry ps st = Ok st' -> placed done st -> placed done st'.
Proof.
  induction ps as [|[out v] ps IH]; intros extra st st' S N P H Pl; cbn [for_each] in H.
  - injection H as <-. exact Pl.
  - apply bind_ok in H as (st1 & H1 & H). inversion N as [|? ? N1 N2]. subst.
    destruct (P (out, v) (or_introl eq_refl)) as (Q1 & Q2 & Q3). cbn [fst snd] in *.
    destruct (add_entry_spec done extra st out v st1 S Q1 Q2 Q3 H1) as (S1 & _).
    apply (IH (out :: extra) st1 st' S1 N2); [|exact H|].
    + intros p Hp. destruct (P p (or_intror Hp)) as (R1 & R2 & R3). split; [exact R1|]. split; [exact R2|].
      intros [E|Q]; [|exact (R3 Q)]. apply N1. rewrite E. apply in_map. exact Hp.
    + exact (add_entry_placed done extra st out v st1 _ _ S Q2 H1 S1 Pl).
Qed.
