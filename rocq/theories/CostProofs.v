(** The estimation ends, and its gas is infinite exactly for functions from which
    a recursion can be reached. *)
From Coq Require Import Relations.
From Verif Require Import Base Lexical DepsModel UtilModel UtilProps LiveModel CfgModel InlineModel JumpModel CostModel.
From Verif Require UnifyProps.
Notation lookup := UtilModel.lookup.
Open Scope string_scope. Open Scope list_scope.

(** ** Literals *)
Lemma hex_digit_pos c d : hex_digit c = Some d -> (0 <= d)%Z.
Proof. unfold hex_digit. repeat match goal with |- context [if ?b then _ else _] => destruct b end; intros H; try discriminate; injection H as <-; lia. Qed.
Lemma hex_digits_pos l : forall acc p z, (0 <= acc)%Z -> hex_digits l acc p = Some z -> (0 <= z)%Z.
Proof.
  induction l as [|c l IH]; intros acc p z A H; cbn in H; [destruct p; [injection H as <-; exact A|discriminate]|]. destruct (hex_digit c) as [d|] eqn:D; [apply hex_digit_pos in D; eapply IH; [|exact H]; lia|].
  destruct (Ascii.eqb c "_" && p); [|discriminate]. eapply IH; eauto.
Qed.
Lemma hex_body_pos l z : hex_body l = Some z -> (0 <= z)%Z.
Proof.
  unfold hex_body. destruct l as [|a [|b l]]; try (apply hex_digits_pos; lia). destruct (Ascii.eqb a "0" && _); [|apply hex_digits_pos; lia]. destruct l as [|u l]; [discriminate|]. destruct (Ascii.eqb u "_"); apply hex_digits_pos; lia.
Qed.
Lemma lstrip_last a c : is_space c = false -> lstrip (a ++ [c]) = lstrip a ++ [c].
Proof. intros H. induction a as [|x a IH]; cbn; [rewrite H; reflexivity|]. destruct (is_space x); [exact IH|reflexivity]. Qed.
Lemma literal_pos x z : startswith "0x" x = true -> py_int16 x = Some z -> (0 <= z)%Z.
Proof.
  intros P H. destruct x as [|c x]; [discriminate|]. assert (c = "0"%char) as ->. { unfold startswith in P. cbn [prefix] in P. destruct (ascii_dec "0" c) as [E|]; [congruence|discriminate P]. }
  unfold py_int16, strip in H. cbn [list_ascii_of_string lstrip] in H. change (is_space "0") with false in H. cbn iota in H. cbn [rev] in H. rewrite lstrip_last in H by reflexivity. rewrite rev_app_distr in H. cbn [rev app] in H. cbn [Ascii.eqb] in H. exact (hex_body_pos _ _ H).
Qed.
Lemma push_number x : startswith "0x" x = true -> py_int16 x <> None -> exists n, get_push_number_hex x = Ok n.
Proof.
  intros P H. unfold get_push_number_hex. destruct (py_int16 x) as [z|] eqn:E; [|tauto]. cbn [of_option bind]. apply (literal_pos _ _ P) in E. destruct (encoding_size_minimal z) as (k & Q & _); [lia|]. unfold get_num_bytes_int. rewrite Q. cbn [bind]. eauto.
Qed.

Lemma add_none a b : fst (add_cost a b) = None <-> fst a = None \/ fst b = None.
Proof. unfold add_cost. cbn [fst]. destruct (fst a), (fst b); intuition discriminate. Qed.
Definition readable_args (l : list string) : Prop := forall x, In x l -> prefix "0x" x = true -> py_int16 x <> None.
Lemma args_ok l : readable_args l -> forall c intro, exists c' intro', for_each arg_cost l (c, intro) = Ok (c', intro') /\ (fst c' = None <-> fst c = None).
Proof.
  induction l as [|x l IH]; intros R c intro; [exists c, intro; cbn; tauto|]. assert (Rl : readable_args l) by (intros y I; apply R; now right). cbn [for_each arg_cost].
  destruct (startswith "0x" x) eqn:P.
  - destruct (String.eqb x "0x00"); [cbn [bind]|destruct (push_number x P (R x (or_introl eq_refl) P)) as (n & ->); cbn [bind]];
      destruct (IH Rl (add_cost c (Some 2, 1)) intro) as (c1 & i1 & E1 & H1) || idtac.
    + exists c1, i1. split; [exact E1|]. rewrite H1, add_none. cbn. intuition discriminate.
    + destruct (IH Rl (add_cost c (Some 3, 1 + n)) intro) as (c2 & i2 & E2 & H2). exists c2, i2. split; [exact E2|]. rewrite H2, add_none. cbn. intuition discriminate.
  - destruct (mem x intro); cbn [bind]; [apply (IH Rl)|]. destruct (IH Rl (add_cost c (Some 3, 1)) intro) as (c1 & i1 & E1 & H1). exists c1, i1. split; [exact E1|]. rewrite H1, add_none. cbn. intuition discriminate.
Qed.

Section Functions.
Variables (ins_cost : string -> nat) (functions : list (string * cfun)).
Notation fns := (map fst functions).
(** [f] calls [h]. *)
Definition direct (f h : string) : Prop := In h fns /\ exists k kb i, lookup f functions = Some k /\ In kb (cl_blocks (fn_blocks k)) /\ In i (cb_instrs (snd kb)) /\ li_op i = h.
Notation reaches := (clos_trans string direct).
(** A recursion can be reached from [f]. *)
Definition dirty (f : string) : Prop := exists h, (h = f \/ reaches f h) /\ reaches h h.
Hypothesis readable : forall f k kb i, lookup f functions = Some k -> In kb (cl_blocks (fn_blocks k)) -> In i (cb_instrs (snd kb)) -> readable_args (li_ins i).

Lemma reaches_first f h : reaches f h -> exists g, direct f g /\ (g = h \/ reaches g h).
Proof. intros H. apply clos_trans_t1n in H. destruct H as [h H|g h H R]; [eauto|]. exists g. split; [exact H|]. right. now apply clos_t1n_trans. Qed.
Lemma dirty_direct f : dirty f <-> exists h, direct f h /\ dirty h.
Proof.
  split.
  - intros (h & H & R). destruct H as [->|H].
    + destruct (reaches_first _ _ R) as (g & D & G). exists g. split; [exact D|]. exists f. split; [|exact R]. destruct G as [->|G]; auto.
    + destruct (reaches_first _ _ H) as (g & D & G). exists g. split; [exact D|]. exists h. split; [|exact R]. destruct G as [->|G]; auto.
  - intros (g & D & h & H & R). exists h. split; [|exact R]. right. destruct H as [->|H]; [now apply t_step|]. eapply t_trans; [apply t_step; exact D|exact H].
Qed.

Definition cached (g : string) (st : cstate) : Prop := lookup g (cs_costs st) <> None.
Definition grows (st st' : cstate) : Prop := incl (cs_traversed st) (cs_traversed st') /\ forall g, cached g st -> cached g st'.
Definition settled (st st' : cstate) : Prop := forall g, In g (cs_traversed st') -> lookup g (cs_costs st') = None -> In g (cs_traversed st) /\ lookup g (cs_costs st) = None.
Definition exact (st : cstate) : Prop := forall g c, lookup g (cs_costs st) = Some c -> In g fns /\ (fst c = None <-> dirty g).
(** The functions whose estimation is going on are [f] and callers of [f]. *)
Definition pending (f : string) (st : cstate) : Prop := forall g, In g (cs_traversed st) -> lookup g (cs_costs st) = None -> g = f \/ reaches g f.
Definition left_over (st : cstate) : nat := length (filter (fun g => negb (mem g (cs_traversed st))) fns).
Lemma grows_refl st : grows st st.
Proof. split; [apply incl_refl|auto]. Qed.
Lemma grows_trans a b d : grows a b -> grows b d -> grows a d.
Proof. intros [A1 A2] [B1 B2]. split; [eapply incl_tran; eassumption|auto]. Qed.
Lemma settled_refl st : settled st st.
Proof. intros g A B. auto. Qed.
Lemma settled_trans a b d : settled a b -> settled b d -> settled a d.
Proof. intros A B g I U. destruct (B g I U). now apply A. Qed.
Lemma pending_later f a b : settled a b -> pending f a -> pending f b.
Proof. intros S P g I U. destruct (S g I U). now apply P. Qed.
Lemma left_less a b : grows a b -> left_over b <= left_over a.
Proof.
  intros [I _]. unfold left_over. induction fns as [|g l IH]; [apply le_n|]. cbn. destruct (mem g (cs_traversed a)) eqn:A; cbn [negb].
  - apply mem_In, I, mem_In in A. rewrite A. exact IH.
  - destruct (mem g (cs_traversed b)); cbn; lia.
Qed.
Lemma left_strict f st : In f fns -> ~ In f (cs_traversed st) -> left_over {| cs_costs := cs_costs st; cs_traversed := f :: cs_traversed st |} < left_over st.
Proof.
  intros I N. unfold left_over. cbn [cs_traversed]. assert (W : forall l, length (filter (fun g => negb (mem g (f :: cs_traversed st))) l) <= length (filter (fun g => negb (mem g (cs_traversed st))) l)).
  { induction l as [|g l IH]; [apply le_n|]. cbn [filter]. destruct (mem g (cs_traversed st)) eqn:A; cbn [negb].
    - assert (mem g (f :: cs_traversed st) = true) as -> by (apply mem_In; right; now apply mem_In). exact IH.
    - destruct (mem g (f :: cs_traversed st)); cbn [negb length]; lia. }
  induction fns as [|g l IH]; [destruct I|]. cbn [filter]. specialize (W l). destruct I as [->|I].
  - assert (mem f (f :: cs_traversed st) = true) as -> by (apply mem_In; now left). assert (mem f (cs_traversed st) = false) as -> by (destruct (mem f (cs_traversed st)) eqn:M; [apply mem_In in M; tauto|reflexivity]). cbn [negb length]. lia.
  - specialize (IH I). destruct (mem g (cs_traversed st)) eqn:A; cbn [negb].
    + assert (mem g (f :: cs_traversed st) = true) as -> by (apply mem_In; right; now apply mem_In). exact IH.
    + destruct (mem g (f :: cs_traversed st)); cbn [negb length]; lia.
Qed.

Definition function_ok (n : nat) : Prop := forall f st, In f fns -> left_over st <= n ->
  exists c st', function_cost ins_cost functions n f st = Ok (c, st') /\ grows st st' /\ lookup f (cs_costs st') = Some c
  /\ (exact st -> (forall g, In g (cs_traversed st) -> lookup g (cs_costs st) = None -> reaches g f) -> (fst c = None <-> dirty f) /\ exact st' /\ settled st st').
Lemma op_finite i : fst (op_cost ins_cost i) <> None.
Proof. unfold op_cost. destruct (_ || _); discriminate. Qed.
Lemma instrs_ok n f : function_ok n -> forall l, (forall i, In i l -> readable_args (li_ins i)) -> (forall i, In i l -> In (li_op i) fns -> direct f (li_op i)) ->
  forall c intro st, left_over st <= n ->
  exists c' intro' st', for_each (instr_cost ins_cost functions (function_cost ins_cost functions n)) l (c, intro, st) = Ok (c', intro', st') /\ grows st st'
  /\ (exact st -> pending f st -> (fst c' = None <-> fst c = None \/ exists i, In i l /\ In (li_op i) fns /\ dirty (li_op i)) /\ exact st' /\ settled st st').
Proof.
  intros FO. induction l as [|i l IH]; intros R D c intro st Le.
  - exists c, intro, st. split; [reflexivity|]. split; [apply grows_refl|]. intros E _. split; [|split; [exact E|apply settled_refl]]. split; [auto|intros [H|(i & [] & _)]; exact H].
  - cbn [for_each]. unfold instr_cost at 1.
    assert (S : exists k st1, match lookup (li_op i) (cs_costs st) with Some k => Ok (k, st) | None => if mem (li_op i) fns then function_cost ins_cost functions n (li_op i) st else Ok (op_cost ins_cost i, st) end = Ok (k, st1) /\ grows st st1
      /\ (exact st -> pending f st -> (fst k = None <-> In (li_op i) fns /\ dirty (li_op i)) /\ exact st1 /\ settled st st1)).
    { destruct (lookup (li_op i) (cs_costs st)) as [k|] eqn:L.
      - exists k, st. split; [reflexivity|]. split; [apply grows_refl|]. intros E _. destruct (E _ _ L) as (A & B). split; [tauto|]. split; [exact E|apply settled_refl].
      - destruct (mem (li_op i) fns) eqn:M.
        + apply mem_In in M. destruct (FO _ st M Le) as (k & st1 & Q & G & _ & H). exists k, st1. split; [exact Q|]. split; [exact G|]. intros E P. destruct H as (A & B & C); [exact E| |split; [tauto|auto]].
          intros g I U. assert (Df := D i (or_introl eq_refl) M). destruct (P g I U) as [->|H]; [now apply t_step|]. eapply t_trans; [exact H|now apply t_step].
        + exists (op_cost ins_cost i), st. split; [reflexivity|]. split; [apply grows_refl|]. intros E _. split; [|split; [exact E|apply settled_refl]]. split; [intros Q; destruct (op_finite i Q)|intros [I _]; apply mem_In in I; congruence]. }
    destruct S as (k & st1 & -> & G & H). cbn [bind fst snd]. destruct (args_ok (li_ins i) (R i (or_introl eq_refl)) (add_cost c k) intro) as (c1 & i1 & -> & Hc). cbn [bind fst snd].
    assert (Le1 : left_over st1 <= n) by (pose proof (left_less _ _ G); lia).
    destruct (IH (fun j J => R j (or_intror J)) (fun j J => D j (or_intror J)) c1 (li_outs i ++ i1) st1 Le1) as (c' & i' & st' & Q & G' & H'). exists c', i', st'. split; [exact Q|]. split; [exact (grows_trans _ _ _ G G')|].
    intros E P. destruct (H E P) as (A & E1 & S1). destruct (H' E1 (pending_later f _ _ S1 P)) as (A' & E2 & S2). split; [|split; [exact E2|exact (settled_trans _ _ _ S1 S2)]].
    rewrite A', Hc, add_none, A. split.
    + intros [[?|[? ?]]|(j & J & ?)]; [now left|right; exists i; split; [now left|auto]|right; exists j; split; [now right|auto]].
    + intros [?|(j & [->|J] & ? & ?)]; [tauto|tauto|right; eauto].
Qed.
Lemma blocks_ok n f : function_ok n -> forall l, (forall kb i, In kb l -> In i (cb_instrs (snd kb)) -> readable_args (li_ins i)) -> (forall kb i, In kb l -> In i (cb_instrs (snd kb)) -> In (li_op i) fns -> direct f (li_op i)) ->
  forall c intro st, left_over st <= n ->
  exists c' intro' st', for_each (block_cost ins_cost functions (function_cost ins_cost functions n)) l (c, intro, st) = Ok (c', intro', st') /\ grows st st'
  /\ (exact st -> pending f st -> (fst c' = None <-> fst c = None \/ exists kb i, In kb l /\ In i (cb_instrs (snd kb)) /\ In (li_op i) fns /\ dirty (li_op i)) /\ exact st' /\ settled st st').
Proof.
  intros FO. induction l as [|kb l IH]; intros R D c intro st Le.
  - exists c, intro, st. split; [reflexivity|]. split; [apply grows_refl|]. intros E _. split; [|split; [exact E|apply settled_refl]]. split; [auto|intros [H|(kb & i & [] & _)]; exact H].
  - cbn [for_each]. unfold block_cost at 1. destruct (instrs_ok n f FO (cb_instrs (snd kb)) (fun i I => R kb i (or_introl eq_refl) I) (fun i I => D kb i (or_introl eq_refl) I) no_cost intro st Le) as (c1 & i1 & st1 & -> & G & H). cbn [bind fst snd].
    assert (Le1 : left_over st1 <= n) by (pose proof (left_less _ _ G); lia).
    destruct (IH (fun j i J => R j i (or_intror J)) (fun j i J => D j i (or_intror J)) (add_cost c c1) i1 st1 Le1) as (c' & i' & st' & Q & G' & H'). exists c', i', st'. split; [exact Q|]. split; [exact (grows_trans _ _ _ G G')|].
    intros E P. destruct (H E P) as (A & E1 & S1). destruct (H' E1 (pending_later f _ _ S1 P)) as (A' & E2 & S2). split; [|split; [exact E2|exact (settled_trans _ _ _ S1 S2)]].
    rewrite A', add_none, A. cbn [fst no_cost]. split.
    + intros [[?|[?|(i & ?)]]|(kb' & i & ? & ?)]; [now left|discriminate|right; exists kb, i; split; [now left|auto]|right; exists kb', i; split; [now right|auto]].
    + intros [?|(kb' & i & [->|J] & ? & ? & ?)]; [tauto|left; right; right; eauto|right; eauto 6].
Qed.
Lemma cost_ends n : function_ok n.
Proof.
  assert (Known : forall m f st c, lookup f (cs_costs st) = Some c -> exists c' st', function_cost ins_cost functions m f st = Ok (c', st') /\ grows st st' /\ lookup f (cs_costs st') = Some c'
    /\ (exact st -> (forall g, In g (cs_traversed st) -> lookup g (cs_costs st) = None -> reaches g f) -> (fst c' = None <-> dirty f) /\ exact st' /\ settled st st')).
  { intros m f st c L. exists c, st. split; [destruct m; cbn [function_cost]; rewrite L; reflexivity|]. split; [apply grows_refl|]. split; [exact L|]. intros E _. split; [apply (E _ _ L)|split; [exact E|apply settled_refl]]. }
  assert (Again : forall m f st, In f fns -> lookup f (cs_costs st) = None -> mem f (cs_traversed st) = true -> exists c' st', function_cost ins_cost functions m f st = Ok (c', st') /\ grows st st' /\ lookup f (cs_costs st') = Some c'
    /\ (exact st -> (forall g, In g (cs_traversed st) -> lookup g (cs_costs st) = None -> reaches g f) -> (fst c' = None <-> dirty f) /\ exact st' /\ settled st st')).
  { intros m f st If L M. exists (None, 1), (set_cost f (None, 1) st). split; [destruct m; cbn [function_cost]; rewrite L, M; reflexivity|]. split; [|split].
    - split; [apply incl_refl|]. intros g H. unfold cached, set_cost in *. cbn. rewrite UnifyProps.lookup_dict_set. destruct (String.eqb f g); [discriminate|exact H].
    - cbn. rewrite UnifyProps.lookup_dict_set, String.eqb_refl. reflexivity.
    - intros E P. assert (Df : dirty f) by (exists f; split; [now left|]; apply P; [now apply mem_In|exact L]). split; [cbn; tauto|]. split.
      + intros g c H. cbn in H. rewrite UnifyProps.lookup_dict_set in H. destruct (String.eqb_spec f g) as [<-|]; [injection H as <-; cbn; tauto|now apply E].
      + intros g I U. cbn in I, U. rewrite UnifyProps.lookup_dict_set in U. destruct (String.eqb f g); [discriminate|auto]. }
  induction n as [|n IH]; intros f st If Le.
  - destruct (lookup f (cs_costs st)) as [c|] eqn:L; [exact (Known 0 f st c L)|]. destruct (mem f (cs_traversed st)) eqn:M; [exact (Again 0 f st If L M)|].
    exfalso. assert (N : ~ In f (cs_traversed st)) by (rewrite <- mem_In, M; discriminate). pose proof (left_strict f st If N). lia.
  - destruct (lookup f (cs_costs st)) as [c|] eqn:L; [exact (Known (S n) f st c L)|]. destruct (mem f (cs_traversed st)) eqn:M; [exact (Again (S n) f st If L M)|].
    assert (N : ~ In f (cs_traversed st)) by (rewrite <- mem_In, M; discriminate). pose proof (left_strict f st If N) as Ls. cbn [function_cost]. rewrite L, M.
    destruct (lookup f functions) as [k|] eqn:Lk; [|exfalso; apply lookup_None in Lk; tauto]. cbn [of_option bind].
    set (st0 := {| cs_costs := cs_costs st; cs_traversed := f :: cs_traversed st |}) in *. assert (Le0 : left_over st0 <= n) by lia.
    destruct (blocks_ok n f IH (cl_blocks (fn_blocks k)) (fun kb i A B => readable f k kb i Lk A B)) with (c := no_cost) (intro := fn_args k) (st := st0) as (c & i & st' & -> & G & H); [|exact Le0|].
    { intros kb j A B Ij. split; [exact Ij|]. exists k, kb, j. auto. }
    cbn [bind fst snd]. exists c, (set_cost f c st'). split; [reflexivity|]. split; [|split].
    + destruct G as [G1 G2]. split; [intros g I; apply G1; now right|]. intros g I. unfold cached, set_cost. cbn. rewrite UnifyProps.lookup_dict_set. destruct (String.eqb f g); [discriminate|]. apply G2. exact I.
    + cbn. rewrite UnifyProps.lookup_dict_set, String.eqb_refl. reflexivity.
    + intros E P. destruct H as (A & E' & S'); [exact E| |].
      { intros g [<-|I] U; [now left|]. right. now apply P. }
      assert (Q : fst c = None <-> dirty f).
      { rewrite A, dirty_direct. cbn [fst no_cost]. split.
        - intros [?|(kb & j & I1 & I2 & I3 & I4)]; [discriminate|]. exists (li_op j). split; [|exact I4]. split; [exact I3|]. exists k, kb, j. auto.
        - intros (h & (Ih & k' & kb & j & Lk' & I1 & I2 & <-) & Dh). rewrite Lk in Lk'. injection Lk' as <-. right. exists kb, j. auto. }
      split; [exact Q|]. split.
      * intros g c0 H0. cbn in H0. rewrite UnifyProps.lookup_dict_set in H0. destruct (String.eqb_spec f g) as [<-|]; [injection H0 as <-; auto|now apply E'].
      * intros g I U. cbn in I, U. rewrite UnifyProps.lookup_dict_set in U. destruct (String.eqb_spec f g) as [<-|Nf]; [discriminate|]. destruct (S' g I U) as ([Q1|I'] & U'); [tauto|auto].
Qed.
End Functions.
