(** The estimation of functions without recursion gives the sums of [CostSpec]. *)
From Verif Require Import Base Lexical UtilModel UtilProps LiveModel CfgModel InlineModel JumpModel InlineDriverModel CostModel CostSpec CostProofs.
From Verif Require UnifyProps DepsModel.
Notation lookup := UtilModel.lookup.
Open Scope string_scope. Open Scope list_scope.

Lemma add_assoc a b c : add_cost (add_cost a b) c = add_cost a (add_cost b c).
Proof. destruct a as [[a|] a2], b as [[b|] b2], c as [[c|] c2]; unfold add_cost; cbn [fst snd]; rewrite ?Nat.add_assoc; reflexivity. Qed.
Lemma add_zero a : add_cost a no_cost = a.
Proof. destruct a as [[a|] a2]; unfold add_cost, no_cost; cbn [fst snd]; rewrite ?Nat.add_0_r; reflexivity. Qed.
Lemma zero_add a : add_cost no_cost a = a.
Proof. destruct a as [[a|] a2]; reflexivity. Qed.
Lemma add_finite a b : fst (add_cost a b) <> None -> fst a <> None /\ fst b <> None.
Proof. intros H. split; intros Q; apply H; apply add_none; tauto. Qed.
Lemma remove_filter x l : filter (fun y => negb (String.eqb y x)) l = remove string_dec x l.
Proof. induction l as [|y l IH]; [reflexivity|]. cbn. rewrite IH. destruct (string_dec x y) as [->|N]; [rewrite String.eqb_refl; reflexivity|]. destruct (String.eqb_spec y x) as [->|_]; [congruence|reflexivity]. Qed.

Lemma push_bytes_of x n : startswith "0x" x = true -> get_push_number_hex x = Ok n -> exists z, DepsModel.py_int16 x = Some z /\ bytes_of z n.
Proof.
  intros P H. unfold get_push_number_hex in H. destruct (DepsModel.py_int16 x) as [z|] eqn:E; cbn [of_option bind] in H; [|discriminate]. exists z. split; [reflexivity|]. apply (literal_pos _ _ P) in E.
  destruct (encoding_size_minimal z) as (k & Q & L1 & L2); [lia|]. unfold get_num_bytes_int in H. rewrite Q in H. cbn [bind] in H. assert (n = Nat.max 1 k) as -> by congruence. clear H. destruct (Z.ltb_spec z 0); [lia|]. split; [apply Nat.le_max_l|]. split.
  - eapply Z.lt_le_trans; [exact L1|]. apply Z.pow_le_mono_r; lia.
  - intros m M F. apply Nat.max_lub; auto.
Qed.
Lemma args_sum l : forall c intro c' intro', for_each arg_cost l (c, intro) = Ok (c', intro') ->
  exists ps, Forall2 price (fst (needed intro l)) ps /\ c' = add_cost c (total ps) /\ intro' = snd (needed intro l).
Proof.
  induction l as [|x l IH]; intros c intro c' intro' E.
  - injection E as <- <-. exists []. split; [constructor|]. split; [symmetry; apply add_zero|reflexivity].
  - cbn [for_each] in E. unfold arg_cost at 1 in E. cbn [needed]. destruct (startswith "0x" x) eqn:P; unfold startswith in P; rewrite P; cbn [fst snd].
    + assert (W : forall d, price x d -> for_each arg_cost l (add_cost c d, intro) = Ok (c', intro') -> exists ps, Forall2 price (x :: fst (needed intro l)) ps /\ c' = add_cost c (total ps) /\ intro' = snd (needed intro l)).
      { intros d D F. destruct (IH _ _ _ _ F) as (ps & A & -> & ->). exists (d :: ps). split; [now constructor|]. split; [cbn [total fold_right]; apply add_assoc|reflexivity]. }
      destruct (String.eqb_spec x "0x00") as [->|N]; cbn [bind] in E; [apply (W (Some 2, 1)); [left; auto|exact E]|].
      destruct (get_push_number_hex x) as [n|] eqn:Q; cbn [bind] in E; [|discriminate]. destruct (push_bytes_of x n P Q) as (z & Z1 & Z2). apply (W (Some 3, 1 + n)); [right; left; eauto 8|exact E].
    + destruct (mem x intro) eqn:M; cbn [bind] in E.
      * destruct (in_dec string_dec x intro) as [_|N]; [|apply mem_In in M; contradiction]. rewrite remove_filter in E. exact (IH _ _ _ _ E).
      * destruct (in_dec string_dec x intro) as [I|_]; [apply mem_In in I; congruence|]. cbn [fst snd]. destruct (IH _ _ _ _ E) as (ps & A & -> & ->). exists ((Some 3, 1) :: ps). split; [constructor; [right; right; auto|exact A]|]. split; [cbn [total fold_right]; apply add_assoc|reflexivity].
Qed.
Lemma own_cost ins_cost i : op_cost ins_cost i = own_price ins_cost (li_op i).
Proof.
  unfold op_cost, own_price. destruct (String.eqb_spec (li_op i) "PhiFunction") as [->|A]; [reflexivity|]. destruct (String.eqb_spec (li_op i) "FunctionReturn") as [->|B]; [reflexivity|].
  cbn [orb]. destruct (in_dec string_dec (li_op i) ["PhiFunction"; "FunctionReturn"]) as [[I|[I|[]]]|]; [congruence|congruence|reflexivity].
Qed.

Section Functions.
Variables (ins_cost : string -> nat) (functions : list (string * cfun)).
Notation fns := (map fst functions).
Notation spends := (spends ins_cost functions).
Notation spends_code := (spends_code ins_cost functions).
(** The finite costs known are right. *)
Definition right_costs (costs : list (string * cost)) : Prop := forall g c, lookup g costs = Some c -> fst c <> None -> spends g c.
Lemma spends_In f c : spends f c -> In f fns.
Proof. intros H. destruct H as [f k c L _]. destruct (in_dec string_dec f fns) as [I|N]; [exact I|]. apply lookup_None in N. congruence. Qed.

Definition function_right (rec : string -> cstate -> result (cost * cstate)) : Prop := forall f st c st', rec f st = Ok (c, st') -> right_costs (cs_costs st) -> right_costs (cs_costs st') /\ (fst c <> None -> spends f c).
Lemma instrs_right rec : function_right rec -> forall l c intro st c' intro' st', for_each (instr_cost ins_cost functions rec) l (c, intro, st) = Ok (c', intro', st') -> right_costs (cs_costs st) ->
  right_costs (cs_costs st') /\ exists e, c' = add_cost c e /\ (fst e <> None -> forall l2 c2, spends_code intro' l2 c2 -> spends_code intro (l ++ l2) (add_cost e c2)).
Proof.
  intros FR. induction l as [|i l IH]; intros c intro st c' intro' st' E G.
  - injection E as <- <- <-. split; [exact G|]. exists no_cost. split; [symmetry; apply add_zero|]. intros _ l2 c2 H. rewrite zero_add. exact H.
  - cbn [for_each] in E. unfold instr_cost at 1 in E.
    destruct (match lookup (li_op i) (cs_costs st) with Some k => Ok (k, st) | None => if mem (li_op i) fns then rec (li_op i) st else Ok (op_cost ins_cost i, st) end) as [[d st1]|] eqn:D; cbn [bind] in E; [|discriminate].
    assert (K : right_costs (cs_costs st1) /\ (fst d <> None -> forall ps l2 c2, Forall2 price (fst (needed intro (li_ins i))) ps -> spends_code (li_outs i ++ snd (needed intro (li_ins i))) l2 c2 -> spends_code intro (i :: l2) (add_cost d (add_cost (total ps) c2)))).
    { destruct (lookup (li_op i) (cs_costs st)) as [k|] eqn:L.
      - injection D as <- <-. split; [exact G|]. intros F ps l2 c2 A B. specialize (G _ _ L F). eapply spends_call; [eapply spends_In; exact G|exact G|exact A|exact B].
      - destruct (mem (li_op i) fns) eqn:M.
        + apply mem_In in M. destruct (FR _ _ _ _ D G) as (G1 & S). split; [exact G1|]. intros F ps l2 c2 A B. eapply spends_call; eauto.
        + injection D as <- <-. split; [exact G|]. intros _ ps l2 c2 A B. rewrite own_cost. apply spends_operation; [intros I; apply mem_In in I; congruence|exact A|exact B]. }
    destruct K as (G1 & K). cbn [fst snd] in E. destruct (for_each arg_cost (li_ins i) (add_cost c d, intro)) as [[c1 intro1]|] eqn:A; cbn [bind fst snd] in E; [|discriminate].
    destruct (args_sum _ _ _ _ _ A) as (ps & P & -> & ->). destruct (IH _ _ _ _ _ _ E G1) as (G' & e & -> & S). split; [exact G'|].
    exists (add_cost d (add_cost (total ps) e)). split; [rewrite !add_assoc; reflexivity|]. intros F l2 c2 H. apply add_finite in F as (Fd & F). apply add_finite in F as (_ & Fe). rewrite !add_assoc. cbn [app]. apply K; auto.
Qed.
Lemma blocks_right rec : function_right rec -> forall l c intro st c' intro' st', for_each (block_cost ins_cost functions rec) l (c, intro, st) = Ok (c', intro', st') -> right_costs (cs_costs st) ->
  right_costs (cs_costs st') /\ exists e, c' = add_cost c e /\ (fst e <> None -> forall l2 c2, spends_code intro' l2 c2 -> spends_code intro (flat_map (fun kb => cb_instrs (snd kb)) l ++ l2) (add_cost e c2)).
Proof.
  intros FR. induction l as [|kb l IH]; intros c intro st c' intro' st' E G.
  - injection E as <- <- <-. split; [exact G|]. exists no_cost. split; [symmetry; apply add_zero|]. intros _ l2 c2 H. rewrite zero_add. exact H.
  - cbn [for_each] in E. unfold block_cost at 1 in E. destruct (for_each (instr_cost ins_cost functions rec) (cb_instrs (snd kb)) (no_cost, intro, st)) as [[[c1 intro1] st1]|] eqn:D; cbn [bind fst snd] in E; [|discriminate].
    destruct (instrs_right rec FR _ _ _ _ _ _ _ D G) as (G1 & d & -> & S1). destruct (IH _ _ _ _ _ _ E G1) as (G' & e & -> & S2). split; [exact G'|]. exists (add_cost d e). rewrite zero_add. split; [apply add_assoc|].
    intros F l2 c2 H. apply add_finite in F as (Fd & Fe). cbn [flat_map]. rewrite <- app_assoc, add_assoc. auto.
Qed.
Lemma cost_right n : function_right (function_cost ins_cost functions n).
Proof.
  assert (Known : forall m f st c c' st', lookup f (cs_costs st) = Some c -> function_cost ins_cost functions m f st = Ok (c', st') -> right_costs (cs_costs st) -> right_costs (cs_costs st') /\ (fst c' <> None -> spends f c')).
  { intros m f st c c' st' L E G. destruct m; cbn [function_cost] in E; rewrite L in E; injection E as <- <-; split; auto; intros F; exact (G _ _ L F). }
  assert (Set_ : forall f c st, right_costs (cs_costs st) -> (fst c <> None -> spends f c) -> right_costs (cs_costs (set_cost f c st))).
  { intros f c st G S g c0 L. cbn in L. rewrite UnifyProps.lookup_dict_set in L. destruct (String.eqb_spec f g) as [<-|]; [injection L as <-; exact S|exact (G _ _ L)]. }
  assert (Again : forall m f st c' st', lookup f (cs_costs st) = None -> mem f (cs_traversed st) = true -> function_cost ins_cost functions m f st = Ok (c', st') -> right_costs (cs_costs st) -> right_costs (cs_costs st') /\ (fst c' <> None -> spends f c')).
  { intros m f st c' st' L M E G. destruct m; cbn [function_cost] in E; rewrite L, M in E; injection E as <- <-; (split; [apply Set_; [exact G|]|]; intros F; destruct (F eq_refl)). }
  induction n as [|n IH]; intros f st c st' E G; (destruct (lookup f (cs_costs st)) as [c0|] eqn:L; [exact (Known _ _ _ _ _ _ L E G)|]); (destruct (mem f (cs_traversed st)) eqn:M; [exact (Again _ _ _ _ _ L M E G)|]); cbn [function_cost] in E; rewrite L, M in E; [discriminate|].
  destruct (lookup f functions) as [k|] eqn:Lk; cbn [of_option bind] in E; [|discriminate].
  match type of E with context [for_each ?X ?Y ?Z] => destruct (for_each X Y Z) as [[[c1 i1] st1]|] eqn:D; cbn [bind fst snd] in E; [|discriminate] end. injection E as <- <-.
  destruct (blocks_right _ IH _ _ _ _ _ _ _ D G) as (G1 & e & -> & S). rewrite zero_add. assert (Q : fst e <> None -> spends f e).
  { intros F. eapply spends_function; [exact Lk|]. specialize (S F [] no_cost (spends_nothing _ _ _)). rewrite app_nil_r, add_zero in S. exact S. }
  split; [apply Set_; [exact G1|exact Q]|exact Q].
Qed.

(** There is at most one such sum, and it is finite. *)
Lemma price_one x c1 c2 : price x c1 -> price x c2 -> c1 = c2.
Proof.
  intros [[-> ->]|[(N & P & z & n & E & (B1 & B2 & B3) & ->)|[P ->]]] [[Q ->]|[(N' & P' & z' & n' & E' & (C1 & C2 & C3) & ->)|[P' ->]]]; try reflexivity; try congruence; try discriminate; subst; try discriminate.
  rewrite E in E'. injection E' as <-. assert (n = n') as -> by (apply Nat.le_antisymm; auto). reflexivity.
Qed.
Lemma prices_one l p1 : Forall2 price l p1 -> forall p2, Forall2 price l p2 -> p1 = p2.
Proof. induction 1 as [|x c l p1 H _ IH]; intros p2 H2; inversion H2 as [|? c2 ? p2' A B]; subst; [reflexivity|]. f_equal; [exact (price_one _ _ _ H A)|apply IH; exact B]. Qed.
Lemma spends_one f c : spends f c -> forall c', spends f c' -> c' = c.
Proof.
  intros H. refine (spends_mut ins_cost functions (fun f c _ => forall c', spends f c' -> c' = c) (fun have l c _ => forall c', spends_code have l c' -> c' = c) _ _ _ _ f c H); clear.
  - intros f k c L _ IH c' H. inversion H as [f' k' c'' L' H']; subst. rewrite L in L'. injection L' as <-. auto.
  - intros have c' H. inversion H; subst. reflexivity.
  - intros have i l d ps c I _ IHd P _ IHc c' H. inversion H as [|? ? ? d' ps' c0 I' D' P' C'|? ? ? ps' c0 I' P' C']; subst; [|contradiction]. rewrite (IHd _ D'), (IHc _ C'), (prices_one _ _ P' _ P). reflexivity.
  - intros have i l ps c I P _ IHc c' H. inversion H as [|? ? ? d' ps' c0 I' D' P' C'|? ? ? ps' c0 I' P' C']; subst; [contradiction|]. rewrite (IHc _ C'), (prices_one _ _ P' _ P). reflexivity.
Qed.
Lemma prices_finite l ps : Forall2 price l ps -> fst (total ps) <> None.
Proof. induction 1 as [|x c l ps H _ IH]; [discriminate|]. cbn [total fold_right]. intros Q. apply add_none in Q as [Q|Q]; [|now apply IH]. destruct H as [[_ ->]|[(_ & _ & z & n & _ & _ & ->)|[_ ->]]]; discriminate. Qed.
Lemma spends_finite f c : spends f c -> fst c <> None.
Proof.
  intros H. refine (spends_mut ins_cost functions (fun f c _ => fst c <> None) (fun have l c _ => fst c <> None) _ _ _ _ f c H); clear; auto; try discriminate.
  - intros have i l d ps c _ _ D P _ C Q. apply add_none in Q as [Q|Q]; [auto|]. apply add_none in Q as [Q|Q]; [exact (prices_finite _ _ P Q)|auto].
  - intros have i l ps c _ P _ C Q. apply add_none in Q as [Q|Q]; [unfold own_price in Q; destruct (in_dec _ _ _); discriminate|]. apply add_none in Q as [Q|Q]; [exact (prices_finite _ _ P Q)|auto].
Qed.
(** There is none for a function from which a recursion can be reached. *)
Lemma spends_clean f c : spends f c -> ~ dirty functions f.
Proof.
  intros H. refine (spends_mut ins_cost functions (fun f c _ => ~ dirty functions f) (fun have l c _ => forall i, In i l -> In (li_op i) fns -> ~ dirty functions (li_op i)) _ _ _ _ f c H); clear.
  - intros f k c L _ IH D. apply dirty_direct in D as (h & (Ih & k' & kb & i & L' & B & J & <-) & D). rewrite L in L'. injection L' as <-. apply (IH i); [apply in_flat_map; eauto|exact Ih|exact D].
  - intros have i [].
  - intros have i l d ps c I _ IHd P _ IHc j [<-|J]; auto.
  - intros have i l ps c I P _ IHc j [<-|J] K; [contradiction|auto].
Qed.
End Functions.
