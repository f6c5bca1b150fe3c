(** The instructions of a block specification compute what the block computes. *)
From Verif Require Import Base Lexical SymExecModel AsmModel MachineSpec FootprintSpec LexicalProofs
  CheckerProofs DepsModel SpecModel SpecSem SpecProofs SpecBuild.
Open Scope string_scope. Open Scope list_scope.

Section Sound.
Context {V Loc LV : Type}.
Variable sem : semantics V Loc LV.
Variable e0 : string -> V.
Variable w0 : Loc -> LV.

Definition agree (done : list cins) (U : list instr) : Prop :=
  snd (exec_prog sem U (e0, w0)) = snd (exec_cfg sem done (e0, w0))
  /\ forall x, user_name x -> fst (exec_prog sem U (e0, w0)) x = fst (exec_cfg sem done (e0, w0)) x.

Lemma exec_prog_snoc U i s : exec_prog sem (U ++ [i]) s = exec_op sem i (exec_prog sem U s).
Proof. rewrite exec_prog_app. reflexivity. Qed.

Lemma exec_cfg_snoc p c s : exec_cfg sem (p ++ [c]) s = exec_cins sem c (exec_cfg sem p s).
Proof. unfold exec_cfg. rewrite fold_left_app. reflexivity. Qed.

Lemma exec_push i z o e (w : Loc -> LV) : is_push i z -> i_outpt i = [o] ->
  exec_op sem i (e, w) = (bind_vars e [o] [word_of_Z sem z], w).
Proof. intros H E. unfold exec_op. rewrite (is_push_denote sem i z) by exact H. rewrite E. reflexivity. Qed.

Lemma grows_agree done st st' : grows st st' -> agree done (b_ui st) -> agree done (b_ui st').
Proof.
  induction 1 as [|st st1 st2 p z k G IH Hp Hs -> Ho]; auto. intros A. destruct (IH A) as [A1 A2].
  cbn [b_ui append]. unfold agree. rewrite exec_prog_snoc.
  destruct (exec_prog sem (b_ui st1) (e0, w0)) as [e w] eqn:E. simpl in A1, A2.
  rewrite (exec_push p z (fresh (b_out st1))) by auto. simpl. split; [exact A1|].
  intros x Ux. destruct (String.eqb_spec x (fresh (b_out st1))) as [->|]; [|auto].
  exfalso. eapply fresh_not_user; eauto.
Qed.

(** A push holds its constant until the end. *)
Lemma push_value U i z o : NoDup (outputs U) -> In i U -> is_push i z -> i_outpt i = [o] ->
  fst (exec_prog sem U (e0, w0)) o = word_of_Z sem z.
Proof.
  intros N H Hp Ho. apply in_split in H as (a & b & ->). rewrite outputs_app in N.
  apply NoDup_app_r in N. unfold outputs in N. simpl in N. rewrite Ho in N. inversion N as [|? ? N1 N2]. subst.
  rewrite exec_prog_app. destruct (exec_prog sem a (e0, w0)) as [e w].
  change (i :: b) with ([i] ++ b). rewrite exec_prog_app. change (exec_prog sem [i] (e, w)) with (exec_op sem i (e, w)).
  rewrite (exec_push i z o) by auto. etransitivity; [apply exec_prog_other; exact N1|]. simpl. rewrite String.eqb_refl. reflexivity.
Qed.

Lemma val_of_value done rest extra st v o : sinv done rest extra st -> agree done (b_ui st) ->
  (lit_ok v \/ user_name v) -> val_of st v o ->
  fst (exec_prog sem (b_ui st) (e0, w0)) o = aval sem (fst (exec_cfg sem done (e0, w0))) v.
Proof.
  intros S A Hv [[H ->]|(H & n & i & M & Ni & Ho)]; unfold aval; rewrite H.
  - apply A. destruct Hv as [(Q & _)|Q]; [congruence|exact Q].
  - destruct (si_map _ _ _ _ S v n M) as (i' & z & o' & B & C & D & E & _).
    assert (i' = i) by congruence. subst i'. rewrite D.
    eapply push_value; eauto; [apply S|eapply nth_error_In; eauto].
Qed.

Lemma Forall2_map_eq {A B C} (R : A -> B -> Prop) (f : A -> C) (g : B -> C) l l' :
  Forall2 R l l' -> (forall a b, In a l -> R a b -> g b = f a) -> map g l' = map f l.
Proof.
  induction 1 as [|a b l l' H H' IH]; intros Q; [reflexivity|]. simpl. f_equal; [apply Q; simpl; auto|].
  apply IH. intros a' b' I. apply Q. simpl; auto.
Qed.

Lemma grows_sinv_ins st st' : grows st st' -> forall i, In i (b_ui st) -> In i (b_ui st').
Proof. induction 1; auto. subst. intros j Hj. cbn [b_ui append]. apply in_app_iff. auto. Qed.

Lemma stepped_agree done rest c st k st' :
  sinv done (flat_map c_out (c :: rest)) [] st -> cins_ok done c rest ->
  stepped done rest st k c st' -> agree done (b_ui st) -> agree (done ++ [c]) (b_ui st').
Proof.
  intros S C H A. destruct H as [st1 i key G S1 (L1 & L2 & L3 & L4 & _) F|v x z i key Hop Hi Ho Hv Hz Hp Hpo Hs
    |n p z o y l Hop Hi Ho Hl Hz Hn Hp Hpo Hf].
  - cbn [b_ui set_pos append]. unfold agree. rewrite exec_prog_snoc, exec_cfg_snoc.
    pose proof (grows_agree done _ _ G A) as A1.
    assert (Ea : map (fst (exec_prog sem (b_ui st1) (e0, w0))) (i_inpt i)
      = map (aval sem (fst (exec_cfg sem done (e0, w0)))) (c_in c)).
    { eapply Forall2_map_eq; [exact F|]. intros a b Ia R. eapply val_of_value; eauto. apply (co_ins _ _ _ C a Ia). }
    destruct (exec_prog sem (b_ui st1) (e0, w0)) as [e w] eqn:E1.
    destruct (exec_cfg sem done (e0, w0)) as [f u] eqn:E2. unfold agree in A1. rewrite E1, E2 in A1.
    simpl in Ea, A1. destruct A1 as [<- A2]. unfold exec_op, exec_cins. rewrite Ea, L4, L2.
    destruct (cfg_denote sem c (map (aval sem f) (c_in c)) w) as [outs w']. simpl. split; [reflexivity|].
    intros x Ux. apply bind_vars_agree. auto.
  - cbn [b_ui set_pos append]. unfold agree. rewrite exec_prog_snoc, exec_cfg_snoc.
    destruct (exec_prog sem (b_ui st) (e0, w0)) as [e w] eqn:E1.
    destruct (exec_cfg sem done (e0, w0)) as [f u] eqn:E2. unfold agree in A. rewrite E1, E2 in A. simpl in A.
    destruct A as [<- A2]. rewrite (exec_push i z x) by auto. unfold exec_cins, cfg_denote. rewrite Hop, Hi, Ho. simpl.
    split; [reflexivity|]. intros y Uy. unfold aval. rewrite Hv, Hz. destruct (String.eqb y x); auto.
  - cbn [b_ui set_alias set_ui]. destruct (renamed_split n o y p (b_ui st) Hn) as (a & b & EU & La & ER).
    assert (SD := si_defs _ _ _ _ S). rewrite defs_before_uses_spec in SD.
    assert (Nd := si_nodup _ _ _ _ S). rewrite EU, outputs_app in Nd.
    assert (Nob : outputs (p :: b) = o :: outputs b) by (unfold outputs; simpl; rewrite Hpo; reflexivity).
    rewrite Nob in Nd.
    assert (NoA : ~ In o (outputs a)).
    { apply NoDup_remove_2 in Nd. rewrite in_app_iff in Nd. tauto. }
    assert (NoB : ~ In o (outputs b)).
    { apply NoDup_remove_2 in Nd. rewrite in_app_iff in Nd. tauto. }
    assert (Uy : user_name y) by (eapply co_outs; [exact C|]; rewrite Ho; simpl; auto).
    assert (Ry : In y (flat_map c_out (c :: rest))) by (simpl; rewrite Ho; simpl; auto).
    assert (Noy : o <> y) by (intros ->; eapply is_fresh_not_user; eauto).
    assert (NyO : ~ In y (outputs (b_ui st))).
    { intros Q. destruct (si_outs _ _ _ _ S y Q) as [[_ N]|[F|[]]]; [tauto|]. eapply is_fresh_not_user; eauto. }
    assert (NyI : forall i, In i (b_ui st) -> ~ In y (i_inpt i)).
    { intros i Hi' Q. destruct (si_ins _ _ _ _ S i y Hi' Q) as [[_ N]|F]; [tauto|]. eapply is_fresh_not_user; eauto. }
    assert (Ea : map (ren_in o y) a = a).
    { rewrite <- (map_id a) at 2. apply map_ext_in. intros j Hj. apply ren_in_id. intros Q.
      apply in_split in Hj as (a1 & a2 & ->).
      apply (SD a1 j (a2 ++ p :: b) o); [rewrite EU, <- app_assoc; reflexivity|exact Q|].
      change (j :: a2 ++ p :: b) with ((j :: a2) ++ p :: b). rewrite outputs_app, Nob. apply in_app_iff. simpl; auto. }
    assert (Eb : map (ren_in o y) b = map (ren_instr o y) b).
    { apply map_ext_in. intros j Hj. apply ren_in_ren_instr. intros Q. apply NoB. unfold outputs. apply in_flat_map. eauto. }
    assert (Hw : fst (exec_prog sem (b_ui st) (e0, w0)) o = word_of_Z sem z).
    { eapply push_value; eauto; [apply S|eapply nth_error_In; eauto]. }
    unfold agree in *. rewrite ER, Ea, Eb, exec_cfg_snoc. rewrite EU in A, Hw.
    rewrite exec_prog_app in A, Hw. rewrite exec_prog_app.
    destruct (exec_prog sem a (e0, w0)) as [e w].
    assert (P1 : exec_prog sem (p :: b) (e, w) = exec_prog sem b (bind_vars e [o] [word_of_Z sem z], w)).
    { change (p :: b) with ([p] ++ b). rewrite exec_prog_app. change (exec_prog sem [p] (e, w)) with (exec_op sem p (e, w)).
      rewrite (exec_push p z o) by auto. reflexivity. }
    assert (Hp' : is_push (ren_in o y (with_outpt [y] p)) z).
    { destruct Hp as [Q1 Q2]. split; [simpl; rewrite Q1; reflexivity|exact Q2]. }
    assert (P2 : exec_prog sem (ren_in o y (with_outpt [y] p) :: map (ren_instr o y) b) (e, w)
       = exec_prog sem (map (ren_instr o y) b) (bind_vars e [y] [word_of_Z sem z], w)).
    { change (ren_in o y (with_outpt [y] p) :: map (ren_instr o y) b) with ([ren_in o y (with_outpt [y] p)] ++ map (ren_instr o y) b).
      rewrite exec_prog_app. change (exec_prog sem [ren_in o y (with_outpt [y] p)] (e, w)) with (exec_op sem (ren_in o y (with_outpt [y] p)) (e, w)). rewrite (exec_push _ z y) by auto. reflexivity. }
    rewrite P1 in A, Hw. rewrite P2.
    destruct (exec_prog_rename sem o y b Noy) with (e := bind_vars e [o] [word_of_Z sem z])
      (e' := bind_vars e [y] [word_of_Z sem z]) (w := w) as (R1 & R2 & R3).
    { intros j Hj. assert (J : In j (b_ui st)) by (rewrite EU; apply in_app_iff; simpl; auto).
      split; [apply NyI; exact J|]. split.
      - intros Q. apply NyO. unfold outputs. apply in_flat_map. eauto.
      - intros Q. apply NoB. unfold outputs. apply in_flat_map. eauto. }
    { intros x N1 N2. simpl. apply String.eqb_neq in N1, N2. rewrite N1, N2. reflexivity. }
    { simpl. rewrite !String.eqb_refl. reflexivity. }
    destruct A as [A1 A2].
    destruct (exec_cfg sem done (e0, w0)) as [f u] eqn:E2. simpl in A1, A2.
    unfold exec_cins, cfg_denote. rewrite Hop, Hi, Ho, Hl, Hz. simpl. split; [exact (eq_trans R1 A1)|].
    intros x Ux. destruct (String.eqb_spec x y) as [->|N]; [exact (eq_trans R3 Hw)|].
    etransitivity; [apply R2; auto|auto]. intros ->. eapply is_fresh_not_user; eauto.
Qed.
End Sound.

(* ---------------------------------------------------------------- *)
(** Where the instructions of a specification come from. *)
Definition origin (done : list cins) (i : instr) : Prop :=
  (exists z, is_push i z /\ i_storage i = false /\ forall x, In x (i_outpt i) -> user_name x -> In x (flat_map c_out done))
  \/ exists c, In c done /\ op_like i c.

Lemma origin_weaken done done' i : (forall c, In c done -> In c done') -> origin done i -> origin done' i.
Proof.
  intros H [(z & Q1 & Q2 & Q3)|(c & A & B)]; [left|right; exists c; auto]. exists z. split; [exact Q1|]. split; [exact Q2|].
  intros x Hx Ux. specialize (Q3 x Hx Ux). apply in_flat_map in Q3 as (c & Hc & Q). apply in_flat_map. eauto.
Qed.

Lemma grows_origin done st st' : grows st st' -> (forall i, In i (b_ui st) -> origin done i) ->
  forall i, In i (b_ui st') -> origin done i.
Proof.
  induction 1 as [|st st1 st2 p z k G IH Hp Hs -> Ho]; auto. intros A i Hi. cbn [b_ui append] in Hi.
  apply in_app_iff in Hi as [Hi|[<-|[]]]; [apply IH; auto|]. left. exists z. split; [exact Hp|]. split; [exact Hs|].
  rewrite Ho. intros x [<-|[]] Ux. exfalso. eapply fresh_not_user; eauto.
Qed.

Lemma set_nth_comm (x : instr) : forall n U m j j0, nth_error U n = Some j0 -> i_comm x = i_comm j0 ->
  nth_error U m = Some j -> exists j', nth_error (set_nth n x U) m = Some j' /\ i_comm j' = i_comm j.
Proof.
  induction n as [|n IH]; intros [|u U] [|m] j j0 H E Hm; simpl in *; try discriminate; eauto.
  injection H as ->. injection Hm as ->. eauto.
Qed.
Lemma renamed_comm n o y i U m j j0 : nth_error U n = Some i -> nth_error (renamed n o y i U) m = Some j ->
  nth_error U m = Some j0 -> i_comm j = i_comm j0.
Proof.
  intros H E Hm. unfold renamed in E. rewrite nth_error_map in E.
  destruct (set_nth_comm (with_outpt [y] i) n U m j0 i H eq_refl Hm) as (j' & Q1 & Q2). rewrite Q1 in E.
  injection E as <-. exact Q2.
Qed.

Lemma stepped_origin done rest c st k st' : stepped done rest st k c st' ->
  (forall i, In i (b_ui st) -> origin done i) -> forall i, In i (b_ui st') -> origin (done ++ [c]) i.
Proof.
  intros H A. assert (W : forall i, origin done i -> origin (done ++ [c]) i).
  { intros i. apply origin_weaken. intros d Hd. apply in_app_iff. auto. }
  destruct H as [st1 i key G S1 L F|v x z i key Hop Hi Ho Hv Hz Hp Hpo Hs
    |n p z o y l Hop Hi Ho Hl Hz Hn Hp Hpo Hf].
  - intros j Hj. cbn [b_ui set_pos append] in Hj. apply in_app_iff in Hj as [Hj|[<-|[]]].
    + apply W. eapply grows_origin; eauto.
    + right. exists c. split; [apply in_app_iff; simpl; auto|exact L].
  - intros j Hj. cbn [b_ui set_pos append] in Hj. apply in_app_iff in Hj as [Hj|[<-|[]]]; [apply W; auto|].
    left. exists z. split; [exact Hp|]. split; [exact Hs|]. intros y Hy _. rewrite flat_map_app. apply in_app_iff.
    right. simpl. rewrite app_nil_r, Ho, <- Hpo. exact Hy.
  - intros j Hj. cbn [b_ui set_alias set_ui] in Hj. apply In_nth_error in Hj as (m & Hm).
    destruct (nth_error_renamed _ _ _ _ _ _ _ Hn Hm) as (j0 & A' & E1 & E2 & E3 & E4 & E5 & E6).
    destruct (Nat.eqb_spec m n) as [->|N].
    + assert (j0 = p) by congruence. subst j0. left. exists z. destruct Hp as [Q1 Q2]. split; [|split].
      * split; [rewrite E5, Q1; reflexivity|rewrite E1, E3; exact Q2].
      * rewrite E4. destruct (A p (nth_error_In _ _ Hn)) as [(z' & _ & Q & _)|(d & Hd & D1 & D2 & D3 & D4 & _)]; [exact Q|].
        rewrite D3, <- D1. destruct Q2 as [[Q2 _]|[Q2 _]]; rewrite Q2; reflexivity.
      * rewrite E6. intros x Hx _. rewrite flat_map_app. apply in_app_iff. right. simpl. rewrite app_nil_r, Ho. exact Hx.
    + destruct (A j0 (nth_error_In _ _ A')) as [(z' & [Q1 Q2] & Q3 & Q4)|(d & Hd & D1 & D2 & D3 & D4 & D5)].
      * left. exists z'. split; [split; [rewrite E5, Q1; reflexivity|rewrite E1, E3; exact Q2]|]. split; [congruence|].
        rewrite E6. intros x Hx Ux. rewrite flat_map_app. apply in_app_iff. left. auto.
      * right. exists d. split; [apply in_app_iff; auto|]. split; [congruence|]. split; [congruence|]. split; [congruence|].
        split; [|rewrite (renamed_comm _ _ _ _ _ _ _ _ Hn Hm A'); exact D5].
        intros V Loc LV sem args w. rewrite <- D4. unfold op_denote, imm. rewrite E1, E3, E6. reflexivity.
Qed.

(** The whole loop. *)
Lemma build_loop_spec instrs initial : ssa_block instrs initial ->
  forall l done st k st', instrs = done ++ l ->
  sinv done (flat_map c_out l) [] st -> build_loop st k l = Ok st' ->
  (forall i, In i (b_ui st) -> origin done i) ->
  sinv instrs [] [] st'
  /\ (forall i, In i (b_ui st') -> origin instrs i)
  /\ (forall V Loc LV (sem : semantics V Loc LV) e0 w0, agree sem e0 w0 done (b_ui st) -> agree sem e0 w0 instrs (b_ui st')).
Proof.
  intros B l. induction l as [|c l IH]; intros done st k st' E S H O; cbn [build_loop] in H.
  - injection H as <-. rewrite app_nil_r in E. subst. auto.
  - apply bind_ok in H as (st1 & H1 & H).
    assert (C := ssa_cins_ok _ _ done c l B E).
    destruct (build_step_spec done l c st k st1 S C H1) as (S1 & St).
    destruct (IH (done ++ [c]) st1 (Datatypes.S k) st') as (A1 & A2 & A3); auto.
    + rewrite <- app_assoc. exact E.
    + eapply stepped_origin; eauto.
    + split; [exact A1|]. split; [exact A2|]. intros V Loc LV sem e0 w0 A. apply A3.
      eapply stepped_agree; eauto.
Qed.

(* ---------------------------------------------------------------- *)
(** The constants and unused slots of the target layout. *)
Definition entry_of (v : string) : string * string := (v, if String.eqb v "bottom" then "0x00" else v).

Lemma const_entries_spec l : forall acc, NoDup (map fst acc) -> (forall p, In p acc -> p = entry_of (fst p)) ->
  let r := const_entries acc l in
  NoDup (map fst r) /\ (forall p, In p r -> p = entry_of (fst p)) /\ (forall p, In p acc -> In p r)
  /\ (forall v, In v l -> (v = "bottom" \/ startswith "0x" v = true) -> In (entry_of v) r)
  /\ (forall p, In p r -> In p acc \/ (In (fst p) l /\ (fst p = "bottom" \/ startswith "0x" (fst p) = true))).
Proof.
  induction l as [|v l IH]; intros acc N A; simpl.
  - repeat split; auto. intros v [].
  - destruct ((String.eqb v "bottom" || startswith "0x" v) && negb (mem v (map fst acc))) eqn:E.
    + apply andb_true_iff in E as [E1 E2]. apply orb_true_iff in E1. apply negb_true_iff, mem_false in E2.
      destruct (IH (acc ++ [entry_of v])) as (R1 & R2 & R3 & R4 & R5).
      * rewrite map_app. simpl. apply NoDup_app_intro; auto; [constructor; [intros []|constructor]|].
        intros x H [<-|[]]. contradiction.
      * intros p Hp. apply in_app_iff in Hp as [Hp|[<-|[]]]; auto.
      * unfold entry_of in *. repeat split; auto.
        -- intros p Hp. apply R3. apply in_app_iff; auto.
        -- intros u [<-|Hu] Q; [apply R3; apply in_app_iff; simpl; auto|auto].
        -- intros p Hp. destruct (R5 p Hp) as [Q|[Q1 Q2]]; auto. apply in_app_iff in Q as [Q|[<-|[]]]; auto.
           right. split; [simpl; auto|]. simpl. destruct E1 as [E1|E1]; [left; apply String.eqb_eq; exact E1|auto].
    + destruct (IH acc N A) as (R1 & R2 & R3 & R4 & R5). repeat split; auto.
      * intros u [<-|Hu] Q; [|auto].
        assert (T : String.eqb v "bottom" || startswith "0x" v = true).
        { apply orb_true_iff. destruct Q as [->|Q]; [left; reflexivity|auto]. }
        rewrite T in E. simpl in E. apply negb_false_iff, mem_In in E. apply in_map_iff in E as (p & <- & Hp).
        rewrite <- (A p Hp). apply R3. exact Hp.
      * intros p Hp. destruct (R5 p Hp) as [Q|[Q1 Q2]]; auto.
Qed.

Definition special (x : string) : Prop := x = "bottom" \/ startswith "0x" x = true.
Lemma special_not x : special x -> ~ user_name x /\ forall n, x <> fresh n.
Proof.
  intros H. split.
  - intros (A & B & _). destruct H as [->|H]; [apply B; reflexivity|congruence].
  - intros n ->. destruct H as [H|H]; discriminate.
Qed.

(** After an entry was processed, its name stands for a variable holding the
    constant. *)
Definition entry_done (st : bstate) (p : string * string) : Prop :=
  exists o n i, dict_get (fst p) (b_alias st) = Some o /\ In (push_key (snd p), n) (b_map st)
    /\ nth_error (b_ui st) n = Some i /\ i_outpt i = [o].

Lemma add_entry_spec done extra st out v st' :
  sinv done [] extra st -> special out -> lit_ok v -> ~ In out extra ->
  add_entry st (out, v) = Ok st' ->
  sinv done [] (out :: extra) st' /\ entry_done st' (out, v)
  /\ (forall q, fst q <> out -> entry_done st q -> entry_done st' q)
  /\ ((forall i, In i (b_ui st) -> origin done i) -> forall i, In i (b_ui st') -> origin done i)
  /\ (forall V Loc LV (sem : semantics V Loc LV) e0 w0, agree sem e0 w0 done (b_ui st) -> agree sem e0 w0 done (b_ui st')).
Proof.
  intros S Sp (Hv & z & Hz & Pz) Nx H. unfold add_entry in H. rewrite Hv in H.
  destruct (special_not out Sp) as [Nu Nf].
  assert (Ex : forall x, In x (out :: extra) -> ~ user_name x /\ forall n, x <> fresh n).
  { intros x [<-|Hx]; [auto|]. apply (si_extra _ _ _ _ S x Hx). }
  destruct (map_get ("PUSH", [v]) st) as [n|] eqn:M.
  - apply map_get_In in M. apply bind_ok in H as (o & Ho & H). injection H as <-.
    apply out0_spec in Ho as (i & l & E1 & E2).
    destruct (si_map _ _ _ _ S v n M) as (i' & z' & o' & A & B & C & D & E).
    assert (i' = i) by congruence. subst i'. rewrite D in E2. injection E2 as -> <-.
    assert (S' := S). destruct S' as [S1 S2 S3 S4 S5 S6 S7 S8 S9 S10 S11 S12 SU S13].
    split; [constructor; cbn [b_ui b_map b_idx b_out b_pos b_alias set_alias]; auto|].
    + intros x Hx. destruct (S1 x Hx) as [Q|[Q|Q]]; [left; exact Q|right; left; exact Q|right; right; right; exact Q].
    + intros v' n' H'. destruct (S8 v' n' H') as (i1 & z1 & o1 & A1 & B1 & C1 & D1 & F1). exists i1, z1, o1.
      do 4 (split; [assumption|]). destruct F1 as [F1|[F1|F1]]; [left; exact F1|right; left; right; exact F1|right; right; exact F1].
    + intros x y [Q|Q]; [|auto]. injection Q as <- <-. right. split.
      * intros Q. destruct (S1 out Q) as [[Q1 _]|[(m & _ & Q1)|Q1]]; [auto|eapply Nf; eauto|auto].
      * intros j Hj Q. destruct (S3 j out Hj Q) as [[Q1 _]|(m & _ & Q1)]; [auto|eapply Nf; eauto].
    + intros x y [Q|Q]; [injection Q as <- <-; right; left; reflexivity|].
      destruct (S12 x y Q) as [Q1|Q1]; [left; exact Q1|right; right; exact Q1].
    + split; [|split; [|split; auto]].
      * exists o, n, i. simpl. unfold dict_get. simpl. rewrite String.eqb_refl. auto.
      * intros q Nq (o1 & n1 & i1 & F1 & F2 & F3 & F4). exists o1, n1, i1. cbn [b_alias set_alias b_map b_ui].
        split; [|auto]. unfold dict_get in *. simpl. rewrite (proj2 (String.eqb_neq _ _)) by congruence. exact F1.
  - apply bind_ok in H as (st1 & H1 & H). injection H as <-.
    apply new_push_shape in H1 as (p & z' & A & B & C & Sf & D & E & F & G).
    assert (z' = z) by congruence. subst z'.
    assert (Sa : sinv done [] (out :: extra) st1).
    { eapply (sinv_append done done [] [] extra (out :: extra) st st1 p); eauto.
      - rewrite F. apply push_disasm_ok.
      - rewrite C. constructor; [intros []|constructor].
      - rewrite C. intros x [<-|[]]. right; right. simpl; auto.
      - destruct B as [B _]. rewrite B. intros x [].
      - intros x Hx. simpl; auto.
      - intros v' Q. injection Q as <-. exists z, out. do 3 (split; [assumption|]). right; left. simpl; auto.
      - simpl. discriminate. }
    destruct Sa as [S1 S2 S3 S4 S5 S6 S7 S8 S9 S10 S11 S12 SU S13].
    split; [constructor; cbn [b_ui b_map b_idx b_out b_pos b_alias set_alias]; auto|].
    + intros x y [Q|Q]; [|auto]. left. congruence.
    + intros x y [Q|Q]; [injection Q as <- <-; right; left; reflexivity|]. apply (S12 x y Q).
    + assert (N : nth_error (b_ui st1) (length (b_ui st)) = Some p).
      { subst st1. cbn [b_ui append]. rewrite nth_error_app2, Nat.sub_diag by lia. reflexivity. }
      split; [|split; [|split]].
      * exists out, (length (b_ui st)), p. simpl. unfold dict_get. simpl. rewrite String.eqb_refl.
        split; [reflexivity|]. split; [subst st1; simpl; auto|]. auto.
      * intros q Nq (o1 & n1 & i1 & F1 & F2 & F3 & F4). exists o1, n1, i1. cbn [b_alias set_alias b_map b_ui].
        split; [|subst st1; cbn [b_map b_ui append]; split; [right; exact F2|split; [|exact F4]]].
        -- subst st1. unfold dict_get in *. simpl. rewrite (proj2 (String.eqb_neq _ _)) by congruence. exact F1.
        -- rewrite nth_error_snoc; auto. apply nth_error_Some. congruence.
      * intros O i Hi. cbn [b_ui set_alias] in Hi. subst st1. cbn [b_ui append] in Hi.
        apply in_app_iff in Hi as [Hi|[<-|[]]]; [auto|left]. exists z. split; [exact B|]. split; [exact Sf|].
        rewrite C. intros x [<-|[]] Ux. contradiction.
      * intros V Loc LV sem e0 w0 (A1 & A2). cbn [b_ui set_alias]. subst st1. cbn [b_ui append].
        unfold agree. rewrite exec_prog_snoc. destruct (exec_prog sem (b_ui st) (e0, w0)) as [e w] eqn:EE. simpl in A1, A2.
        rewrite (exec_push sem p z out) by auto. simpl. split; [exact A1|]. intros x Ux.
        destruct (String.eqb_spec x out) as [->|]; [contradiction|auto].
Qed.

Lemma add_entries_spec done : forall ps extra st st',
  sinv done [] extra st -> NoDup (map fst ps) -> (forall p, In p ps -> special (fst p) /\ lit_ok (snd p) /\ ~ In (fst p) extra) ->
  for_each add_entry ps st = Ok st' ->
  exists extra', sinv done [] extra' st' /\ (forall p, In p ps -> entry_done st' p)
  /\ (forall q, ~ In (fst q) (map fst ps) -> entry_done st q -> entry_done st' q)
  /\ (forall x, In x extra' -> special x \/ In x extra)
  /\ ((forall i, In i (b_ui st) -> origin done i) -> forall i, In i (b_ui st') -> origin done i)
  /\ (forall V Loc LV (sem : semantics V Loc LV) e0 w0, agree sem e0 w0 done (b_ui st) -> agree sem e0 w0 done (b_ui st')).
Proof.
  induction ps as [|[out v] ps IH]; intros extra st st' S N P H; cbn [for_each] in H.
  - injection H as <-. exists extra. split; [exact S|]. split; [intros p []|]. auto 10.
  - apply bind_ok in H as (st1 & H1 & H). simpl in N. inversion N as [|? ? N1 N2]. subst.
    destruct (P (out, v) (or_introl eq_refl)) as (P1 & P2 & P3). simpl in P1, P2, P3.
    destruct (add_entry_spec done extra st out v st1 S P1 P2 P3 H1) as (A1 & A2 & A3 & A4 & A5).
    destruct (IH (out :: extra) st1 st' A1 N2) as (extra' & B1 & B2 & B3 & B4 & B5 & B6); auto.
    + intros p Hp. destruct (P p (or_intror Hp)) as (Q1 & Q2 & Q3). split; [exact Q1|]. split; [exact Q2|].
      intros [Q|Q]; [|auto]. apply N1. rewrite Q. apply in_map. exact Hp.
    + exists extra'. split; [exact B1|]. split; [|split; [|split; [|split]]].
      * intros p [<-|Hp]; [|auto]. apply B3; auto.
      * intros q Nq Q. simpl in Nq. apply B3; [tauto|]. apply A3; [|exact Q]. intuition.
      * intros x Hx. destruct (B4 x Hx) as [Q|[<-|Q]]; auto.
      * intros O. apply B5. apply A4. exact O.
      * intros V Loc LV sem e0 w0 A. apply B6. apply A5. exact A.
Qed.
